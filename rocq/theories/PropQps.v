(** C58, C59: reading QPS files. *)
From Coq Require Import List Arith ZArith Lia Bool Ascii String Reals Lra Permutation.
From Verif Require Import Base Num LinAlg TestPb Qps QpsSpec QpsText QpsProofs QpsRead QpsSafe.
Import ListNotations.
Local Open Scope R_scope.

(** the extraction of numbers: on a word that denotes a number, up to the next blank, it reads that number *)
Definition reads_numbers (rdnum : string -> option (R * string)) (num : string -> option R) : Prop :=
  forall tok v rest, num tok = Some v -> (rest = EmptyString \/ exists c r, rest = String c r /\ is_space c = true) -> rdnum (append tok rest) = Some (v, rest).
Definition no_newline (ls : list string) : Prop := forall l, In l ls -> has_char newline l = false.
Lemma rn_bdry rdnum num : reads_numbers rdnum num -> forall tok v rest, num tok = Some v -> bdry rest -> rdnum (append tok rest) = Some (v, rest).
Proof. intros H tok v rest N B. apply H; [exact N|]. destruct rest as [|c r]; [now left|right; exists c, r; auto]. Qed.

Lemma read_lines rdnum num full ls its e : reads_numbers rdnum num -> renders num LOTHER ls its e -> consistent its ->
  exists s, doLines rdnum (rd_new full) ls = Val s /\ Inv its full its s /\ r_line s = List.length ls /\ r_sect s = e.
Proof.
  intros RN Rn CO. destruct (lines_inv its CO (renders_names num _ _ _ _ Rn) rdnum num (rn_bdry _ _ RN) full LOTHER ls its e Rn [] [] (rd_new full) (eq_sym (app_nil_r its)) eq_refl) as (s & E & H & L' & S').
  - apply inv_new.
  - exists s. cbn [app] in H. auto.
Qed.

(** A well-formed consistent file is read without exception, and the result is the problem it describes, whatever the
    way numbers are written, the order of the hash map, the case of the headers, comments and blanks *)
Theorem C58_reads : forall rdnum num ord full ls its e, reads_numbers rdnum num -> (forall l, Permutation (ord l) l) ->
  no_newline ls -> renders num LOTHER ls its e -> consistent its ->
  exists q p s, read rdnum ord (rd_new full) (unlines ls) = Val (q, p, s) /\ denotes full its q p.
Proof.
  intros rdnum num ord full ls its e RN OR NL Rn CO. destruct (read_lines rdnum num full ls its e RN Rn CO) as (s & E & H & _).
  destruct (populate_ok its CO full ord s OR H) as (q & p & E' & D). exists q, p, s. split; [|exact D].
  unfold read. rewrite (getlines_unlines ls NL), E. cbn [obind]. rewrite E'. reflexivity.
Qed.

(** The same reader cannot read the same file again: nothing is reset between two calls *)
Lemma first_row its : consistent its -> its <> [] -> exists t r rest, its = IRow t r :: rest.
Proof.
  intros CO NE. destruct (co_order its CO) as (i1 & i2 & i3 & E & H1 & H2 & H3). destruct i1 as [|i i1].
  - exfalso. cbn [app] in E. assert (NR : forall t r, ~ In (IRow t r) its).
    { intros t r H. rewrite E in H. apply in_app_or in H as [H|H]; [exact (H2 _ H)|exact (H3 _ H)]. }
    assert (NC : forall c, ~ In c (cols_of its)).
    { intros c H. apply in_cols in H as (r & v & H). destruct (co_col its CO _ _ _ H) as [t Ht]. exact (NR _ _ Ht). }
    destruct its as [|i its]; [congruence|]. pose proof (or_introl eq_refl : In i (i :: its)) as Hi. destruct i as [t r|c r v|n r v|n r v|t c v|c r v].
    + exact (NR _ _ Hi).
    + destruct (co_col _ CO _ _ _ Hi) as [t Ht]. exact (NR _ _ Ht).
    + destruct (co_rhs _ CO _ _ _ Hi) as [t Ht]. exact (NR _ _ Ht).
    + destruct (co_rng _ CO _ _ _ Hi) as (t & Ht & _). exact (NR _ _ Ht).
    + exact (NC _ (co_bnd _ CO _ _ _ Hi)).
    + exact (NC _ (proj1 (co_quad _ CO _ _ _ Hi))).
  - pose proof (H1 i (or_introl eq_refl)) as K. destruct i; try contradiction. cbn [app] in E. eauto.
Qed.
Lemma reread_exc rdnum num sc ls its e : (forall tok v rest, num tok = Some v -> bdry rest -> rdnum (append tok rest) = Some (v, rest)) ->
  renders num sc ls its e -> forall s t r rest, its = IRow t r :: rest -> (sc = LOTHER \/ r_sect s = sc) -> assoc r (r_rows s) <> None -> doLines rdnum s ls = Exc.
Proof.
  intros RN. induction 1 as [sc|sc l ls its e K R0 IH|sc l t0 w ws ls its e NS T KW NM R0 IH|sc l i1 ls i2 e SP D R0 IH]; intros s t r rest E SC A.
  - discriminate E.
  - assert (LT : lineType l = LEMPTY \/ lineType l = LOTHER) by (destruct K as [->|K]; [left; reflexivity|right; now apply lt_star]).
    cbn [doLines]. unfold doLine. destruct LT as [-> | ->]; cbn [obind]; apply (IH (next_line s) t r rest E SC A).
  - cbn [doLines]. unfold doLine. rewrite (lt_head l t0 w ws NS T KW).
    assert (P : t0 = LNAME -> exists n, parseName l = Val n).
    { intros Ht. specialize (NM Ht). unfold parseName. destruct (get_word_some _ _ _ T) as (r1 & -> & T1 & _). destruct ws as [|w1 ws]; [congruence|].
      destruct (get_word_some _ _ _ T1) as (r2 & -> & _). eauto. }
    destruct t0; try discriminate KW; cbn [obind]; try (destruct (P eq_refl) as [n ->]; cbn [obind]); apply (IH _ t r rest E); auto.
  - assert (SC' : r_sect (next_line s) = sc) by (destruct SC as [->|SC]; [inversion D|exact SC]).
    rewrite <- SC' in D. cbn [doLines]. unfold doLine. rewrite (lt_data l SP), (process_feed rdnum num RN (next_line s) l i1 D).
    assert (K : exists i1', i1 = IRow t r :: i1').
    { destruct i1 as [|i i1]; [inversion D|]. cbn [app] in E. injection E as -> _. eauto. }
    destruct K as [i1' ->]. cbn [ofold feed]. unfold row_add. cbn [next_line r_rows]. destruct (assoc r (r_rows s)); [reflexivity|congruence].
Qed.
Theorem C58_second_read_fails : forall rdnum num ord full ls its e, reads_numbers rdnum num -> (forall l, Permutation (ord l) l) ->
  no_newline ls -> renders num LOTHER ls its e -> consistent its -> its <> [] ->
  exists q p s, read rdnum ord (rd_new full) (unlines ls) = Val (q, p, s) /\ read rdnum ord s (unlines ls) = Exc.
Proof.
  intros rdnum num ord full ls its e RN OR NL Rn CO NE. destruct (read_lines rdnum num full ls its e RN Rn CO) as (s & E & H & _).
  destruct (populate_ok its CO full ord s OR H) as (q & p & E' & D). exists q, p, s. unfold read. rewrite (getlines_unlines ls NL), E. cbn [obind]. rewrite E'.
  split; [reflexivity|]. destruct (first_row its CO NE) as (t & r & rest & Ei).
  rewrite (reread_exc rdnum num LOTHER ls its e (rn_bdry _ _ RN) Rn s t r rest Ei (or_introl eq_refl)); [reflexivity|].
  rewrite (iv_rows _ _ _ _ H). fold (row_ent its r). assert (Hi : In (IRow t r) its) by (rewrite Ei; now left).
  destruct (row_cases its CO t r Hi) as [[_ K]|[_ [i K]]]; rewrite K; discriminate.
Qed.

(** A bound at plus or minus infinity, written without a value as the format says, is refused *)
Theorem C58_infinite_bound_refused : forall rdnum num ord full ls its l rest set c b, reads_numbers rdnum num ->
  renders num LOTHER ls its LBOUNDS -> consistent its -> no_newline (ls ++ l :: rest) ->
  starts_with " " l -> tokens l = [b; set; c] -> b = "MI"%string \/ b = "PL"%string ->
  read rdnum ord (rd_new full) (unlines (ls ++ l :: rest)) = Exc.
Proof.
  intros rdnum num ord full ls its l rest set c b RN Rn CO NL SP T HB. destruct (read_lines rdnum num full ls its _ RN Rn CO) as (s & E & H & _ & SC).
  unfold read. rewrite (getlines_unlines _ NL), lines_app, E. cbn [obind doLines]. unfold doLine. rewrite (lt_data l SP). unfold processLine. cbn [next_line r_sect]. rewrite SC.
  unfold readBounds. destruct (get_word_some _ _ _ T) as (r1 & E1 & T1 & _). rewrite E1.
  destruct (get_word_some _ _ _ T1) as (r2 & E2 & T2 & _). destruct (get_word_some _ _ _ T2) as (r3 & E3 & T3 & _).
  destruct HB as [-> | ->]; cbn [bndType assoc String.eqb Ascii.eqb Bool.eqb]; rewrite E2; unfold readNamedValue1; rewrite E3; unfold get_num; rewrite (proj1 (get_word_nil r3) T3); reflexivity.
Qed.
(** Asked for the full matrix, the reader loses a coefficient given in the upper triangle *)
Theorem C58_upper_triangle_lost : forall its q p c r v i j, denotes true its q p -> In (IQuad c r v) its -> pos c (vars its) j -> pos r (vars its) i -> (i < j)%nat ->
  (forall w, ~ In (IQuad r c w) its) -> ma (qpG q) i j = 0 /\ ma (qpG q) j i = 0.
Proof.
  intros its q p c r v i j D H Pc Pr L' N. pose proof (de_G _ _ _ _ D i j c r Pc Pr) as A. pose proof (de_G _ _ _ _ D j i r c Pr Pc) as B.
  assert (L1 : (i <? j)%nat = true) by (apply Nat.ltb_lt; lia). assert (L2 : (j <? i)%nat = false) by (apply Nat.ltb_ge; lia).
  rewrite L1 in A. rewrite L2 in B. cbn [andb] in A, B. destruct B as [_ B]. specialize (B N). split; [|exact B]. rewrite A. exact B.
Qed.
(** An equality with a range is an inequality, but it is counted as an equality *)
Theorem C58_ranged_equality_counted : forall full its q p r n v, denotes full its q p -> In (IRow RE r) its -> In (IRng n r v) its -> v <> 0 ->
  NoDup (map snd (rows_of its)) -> (exists b, rhs_is its r b) ->
  (exists i, (i < pp_nbCstr p)%nat /\ nth_error (cstrs its) i = Some (RE, r) /\ ba (fl (qpF q)) i <> ba (fu (qpF q)) i) /\
  pp_nbEq p = List.length (filter (fun x => match fst x with RE => true | _ => false end) (rows_of its)).
Proof.
  intros full its q p r n v D H1 H2 NZ ND [b Hb]. destruct (de_p _ _ _ _ D) as (_ & P2 & P3 & _). split; [|exact P3].
  assert (K : In (RE, r) (cstrs its)).
  { apply filter_In. split; [|reflexivity]. unfold rows_of. apply in_flat_map. exists (IRow RE r). split; [exact H1|now left]. }
  apply In_nth_error in K as [i K]. exists i. split; [rewrite P2; apply nth_error_Some; congruence|]. split; [exact K|].
  destruct (de_lu _ _ _ _ D i RE r b K Hb) as [_ Q]. specialize (Q n v H2). unfold ranged in Q. intros EQ.
  destruct (Rleb_spec 0 v) as [P|P]; injection Q as Q1 Q2; rewrite Q1, Q2 in EQ; injection EQ as EQ; revert EQ; unfold Rabs; destruct (Rcase_abs v); lra.
Qed.

(** ** Safety: for every content of the file *)
Definition blank_line (l : string) : Prop := starts_with " " l /\ tokens l = [].
Theorem C59_never_undefined : forall rdnum ord full txt, (forall l, Permutation (ord l) l) -> (forall l, In l (getlines txt) -> ~ blank_line l) ->
  read rdnum ord (rd_new full) txt <> Und.
Proof.
  intros rdnum ord full txt OR NB. unfold read. pose proof (lines_safe rdnum (getlines txt) (rd_new full) (J_new full)) as L.
  destruct (doLines rdnum (rd_new full) (getlines txt)) as [s| |]; cbn [obind]; [|discriminate|].
  - destruct (populate_safe ord s OR L) as [x ->]. discriminate.
  - destruct L as (l1 & l & l2 & s1 & E & _ & _ & B & _). exfalso. apply (NB l); [rewrite E; apply in_or_app; right; now left|exact B].
Qed.
(** exactly when: a blank line after line 10, reached in one of the sections COLUMNS, RHS, RANGES, QUADOBJ *)
Theorem C59_undefined_exactly : forall rdnum ord full txt, (forall l, Permutation (ord l) l) ->
  (read rdnum ord (rd_new full) txt = Und <->
   exists l1 l l2 s, getlines txt = l1 ++ l :: l2 /\ doLines rdnum (rd_new full) l1 = Val s /\
     In (r_sect s) [LCOLUMNS; LRHS; LRANGES; LQUADOBJ] /\ blank_line l /\ (10 <= List.length l1)%nat).
Proof.
  intros rdnum ord full txt OR. split.
  - intros H. unfold read in H. pose proof (lines_safe rdnum (getlines txt) (rd_new full) (J_new full)) as L.
    destruct (doLines rdnum (rd_new full) (getlines txt)) as [s| |]; cbn [obind] in H; [|discriminate|].
    + destruct (populate_safe ord s OR L) as [x E]. rewrite E in H. discriminate H.
    + destruct L as (l1 & l & l2 & s1 & E & E1 & V & B & K). exists l1, l, l2, s1. repeat split; auto; try apply B.
      destruct (r_sect s1); try discriminate V; cbn; tauto.
  - intros (l1 & l & l2 & s & E & E1 & V & B & K). unfold read. rewrite E, lines_app, E1. cbn [obind doLines].
    destruct (lines_count rdnum l1 (rd_new full) s (J_new full) E1) as [_ C]. cbn in C.
    rewrite blank_und; [reflexivity| |exact B|lia]. cbn in V. destruct V as [<-|[<-|[<-|[<-|[]]]]]; reflexivity.
Qed.
Theorem C59_blank_line_undefined : forall rdnum num ord full ls its e l rest, reads_numbers rdnum num -> renders num LOTHER ls its e -> consistent its ->
  no_newline (ls ++ l :: rest) -> In e [LCOLUMNS; LRHS; LRANGES; LQUADOBJ] -> (10 <= List.length ls)%nat -> blank_line l ->
  read rdnum ord (rd_new full) (unlines (ls ++ l :: rest)) = Und.
Proof.
  intros rdnum num ord full ls its e l rest RN Rn CO NL V K B. destruct (read_lines rdnum num full ls its _ RN Rn CO) as (s & E & H & Ln & SC).
  unfold read. rewrite (getlines_unlines _ NL), lines_app, E. cbn [obind doLines]. rewrite blank_und; [reflexivity| |exact B|lia].
  rewrite SC. cbn in V. destruct V as [<-|[<-|[<-|[<-|[]]]]]; reflexivity.
Qed.

(** ** Refusals: a duplicate row name, a second free row, an undeclared row or column, a second set name *)
Lemma bad_exc its full s i : consistent its -> (forall i, In i its -> match i with IRhs n _ _ | IRng n _ _ => n <> EmptyString | _ => True end) ->
  Inv its full its s -> bad its i -> feed s i = Exc.
Proof.
  intros CO NM H B. pose proof (iv_rows _ _ _ _ H) as HR. pose proof (iv_cols _ _ _ _ H) as HC.
  assert (NR : forall r, (forall t, ~ In (IRow t r) its) -> assoc r (r_rows s) = None).
  { intros r N. rewrite HR. apply assoc_tabR_none. intros K. apply in_map_iff in K as ([t r'] & K1 & K2). cbn in K1. subst r'. apply (N t). now apply in_rows. }
  assert (NC : forall c, ~ In c (cols_of its) -> assoc c (r_cols s) = None) by (intros c N; rewrite HC; apply assoc_colsT_none; now rewrite vars_in).
  destruct B as [t t' r K|r r' K|c r v K|n r v K|n r v n' r' v' K NE|n r v K|n r v n' r' v' K NE|t c v K|c r v K]; cbn [feed].
  - unfold row_add. rewrite HR. fold (row_ent its r). destruct (row_cases its CO t' r K) as [[_ E]|[_ [i E]]]; rewrite E; reflexivity.
  - unfold row_add. destruct (assoc r (r_rows s)); [reflexivity|]. rewrite (proj2 (iv_obj _ _ _ _ H)) by eauto. reflexivity.
  - assert (E : exists j s1, with_col s c = (j, s1) /\ r_rows s1 = r_rows s) by (unfold with_col; destruct (assoc c (r_cols s)); eexists _, _; (split; [reflexivity|reflexivity])).
    destruct E as (j & s1 & -> & E). unfold addValueToColumn. cbn [fst]. rewrite E, (NR r K). reflexivity.
  - destruct (String.eqb (r_rhsName s) ""); [|destruct (String.eqb (r_rhsName s) n)]; cbn [obind]; try reflexivity; unfold addValueToRHS; cbn [fst set_rhsName r_rows]; rewrite (NR r K); reflexivity.
  - destruct (iv_rhs _ _ _ _ H) as [[_ Q]|(r0 & v0 & Q)]; [exfalso; exact (Q _ _ _ K)|]. rewrite (eqb_ne _ (NM _ Q)).
    rewrite (co_rhsset its CO _ _ _ _ _ _ Q K). apply String.eqb_neq in NE. rewrite String.eqb_sym, NE. reflexivity.
  - assert (E : assoc r (r_rows s) = None \/ assoc r (r_rows s) = Some (None, RN)).
    { destruct (assoc r (r_rows s)) as [[o t]|] eqn:E; [|now left]. right. rewrite HR in E. pose proof (assoc_in _ _ _ E) as Q. destruct (tabR_in _ _ _ Q) as (t' & r' & Q1 & Q2 & Q3).
      cbn in Q2, Q3. injection Q2 as <- <-. assert (t = RN) by (apply K; now apply in_rows). subst t. now rewrite (proj1 Q3 eq_refl). }
    destruct (String.eqb (r_rangeName s) ""); [|destruct (String.eqb (r_rangeName s) n)]; cbn [obind]; try reflexivity; unfold addValueToRanges; cbn [fst set_rangeName r_rows]; destruct E as [-> | ->]; reflexivity.
  - destruct (iv_rng _ _ _ _ H) as [[_ Q]|(r0 & v0 & Q)]; [exfalso; exact (Q _ _ _ K)|]. rewrite (eqb_ne _ (NM _ Q)).
    rewrite (co_rngset its CO _ _ _ _ _ _ Q K). apply String.eqb_neq in NE. rewrite String.eqb_sym, NE. reflexivity.
  - unfold addBound. rewrite (NC c K). reflexivity.
  - destruct (assoc c (r_cols s)) as [j|] eqn:E; [|reflexivity]. destruct K as [K|K]; [rewrite (NC c K) in E; discriminate E|].
    unfold addQuad. cbn [fst]. rewrite (NC r K). reflexivity.
Qed.
Lemma ofold_app {A X} (f : A -> X -> outc A) l1 l2 : forall a, ofold f a (l1 ++ l2) = obind (ofold f a l1) (fun a => ofold f a l2).
Proof. induction l1 as [|x l1 IH]; intros a; cbn; [reflexivity|]. destruct (f a x); cbn; auto. Qed.
Theorem C59_refuses : forall rdnum num ord full ls its e l i1 i more rest, reads_numbers rdnum num -> renders num LOTHER ls its e ->
  no_newline (ls ++ l :: rest) -> starts_with " " l -> data_line num e l (i1 ++ i :: more) -> consistent (its ++ i1) -> bad (its ++ i1) i ->
  read rdnum ord (rd_new full) (unlines (ls ++ l :: rest)) = Exc.
Proof.
  intros rdnum num ord full ls its e l i1 i more rest RN Rn NL SP D CO B. set (all := its ++ i1).
  assert (NM : forall x, In x all -> match x with IRhs n _ _ | IRng n _ _ => n <> EmptyString | _ => True end).
  { intros x Hx. apply in_app_or in Hx as [Hx|Hx]; [exact (renders_names num _ _ _ _ Rn x Hx)|]. apply (data_names num _ _ _ D). apply in_or_app. now left. }
  destruct (lines_inv all CO NM rdnum num (rn_bdry _ _ RN) full LOTHER ls its e Rn [] i1 (rd_new full) eq_refl eq_refl (inv_new all full)) as (s & E & H & _ & SC).
  cbn [app] in H. unfold read. rewrite (getlines_unlines _ NL), lines_app, E. cbn [obind doLines]. unfold doLine. rewrite (lt_data l SP).
  rewrite (process_feed rdnum num (rn_bdry _ _ RN) (next_line s) l (i1 ++ i :: more)) by (cbn; rewrite SC; exact D). rewrite ofold_app.
  destruct (feed_list all CO NM full i1 its [] (next_line s)) as (s1 & E1 & H1 & _); [now rewrite app_nil_r|eapply inv_data; [exact H|reflexivity..]|].
  rewrite E1. cbn [obind ofold]. rewrite (bad_exc all full s1 i CO NM H1 B). reflexivity.
Qed.
(** A line of data right after the NAME line, or after ENDATA, is refused *)
Theorem C59_misplaced_data : forall rdnum num ord full ls its e l rest, reads_numbers rdnum num -> renders num LOTHER ls its e -> consistent its ->
  no_newline (ls ++ l :: rest) -> starts_with " " l -> e = LNAME \/ e = LENDATA ->
  read rdnum ord (rd_new full) (unlines (ls ++ l :: rest)) = Exc.
Proof.
  intros rdnum num ord full ls its e l rest RN Rn CO NL SP He.
  destruct (lines_inv its CO (renders_names num _ _ _ _ Rn) rdnum num (rn_bdry _ _ RN) full LOTHER ls its e Rn [] [] (rd_new full)) as (s & E & _ & _ & SC);
    [cbn; symmetry; apply app_nil_r|reflexivity|apply inv_new|].
  unfold read. rewrite (getlines_unlines _ NL), lines_app, E. cbn [obind doLines]. unfold doLine. rewrite (lt_data l SP). unfold processLine. cbn [r_sect next_line]. rewrite SC.
  destruct He as [-> | ->]; reflexivity.
Qed.

(** ** A file *)
Definition ex_num (s : string) : option R := assoc s [("1", 1); ("2", 2); ("-3", -3); ("0.5", 1/2)]%string.
Definition ex_rd (s : string) : option (R * string) := let '(w, r) := word s in match ex_num w with Some v => Some (v, r) | None => None end.
Definition ex_file : list string :=
  ["* two variables"; "NAME  EXAMPLE"; "ROWS"; " N  cost"; " g  r1"; " E  r2"; "Columns"; "    x  r1  1   r2  -3  "; "    x  cost  2"; "    y  r1 0.5"; "";
   "RHS"; "    b  r1  2   cost 1"; "RANGES"; "    d  r2  1"; "BOUNDS"; " UP bnd x  1"; " FR bnd y"; "QUADOBJ"; "    x  x  2   y  -3"; "    y y 1"; "ENDATA"]%string.
Definition ex_items : list item :=
  [IRow RN "cost"; IRow RG "r1"; IRow RE "r2"; ICol "x" "r1" 1; ICol "x" "r2" (-3); ICol "x" "cost" 2; ICol "y" "r1" (1/2);
   IRhs "b" "r1" 2; IRhs "b" "cost" 1; IRng "d" "r2" 1; IBnd BUP "x" 1; IBnd BFR "y" 0; IQuad "x" "x" 2; IQuad "x" "y" (-3); IQuad "y" "y" 1]%string.
Lemma word_tok tok rest : (forall c, has_char c tok = true -> is_space c = false) -> bdry rest -> word (append tok rest) = (tok, rest).
Proof.
  induction tok as [|c tok IH]; intros H B.
  - destruct rest as [|c r]; [reflexivity|]. cbn in B |- *. now rewrite B.
  - cbn [append word]. rewrite (H c) by (cbn; now rewrite Ascii.eqb_refl). rewrite IH; [reflexivity| |exact B]. intros d Hd. apply H. cbn. rewrite Hd. apply orb_true_r.
Qed.
Lemma ex_reads : reads_numbers ex_rd ex_num.
Proof.
  intros tok v rest N B. assert (BD : bdry rest) by (destruct B as [->|(c & r & -> & B)]; [exact I|exact B]).
  unfold ex_rd. rewrite word_tok; [now rewrite N| |exact BD]. intros c Hc. pose proof (assoc_in _ _ _ N) as K. cbn in K.
  repeat destruct K as [K|K]; [..|contradiction]; injection K as <- _; cbn [has_char] in Hc;
  repeat (apply orb_true_iff in Hc as [Hc|Hc]; [apply Ascii.eqb_eq in Hc; subst; reflexivity|]); discriminate Hc.
Qed.
Ltac hd t := eapply (rn_head ex_num _ _ t); [intros [? K]; discriminate K|reflexivity|reflexivity|first [intros K; discriminate K|intros _; discriminate]|].
Lemma ex_renders : renders ex_num LOTHER ex_file ex_items LENDATA.
Proof.
  unfold ex_file, ex_items.
  apply rn_skip; [right; eexists; reflexivity|]. hd LNAME. hd LROWS.
  apply (rn_data ex_num LROWS _ [IRow RN "cost"]); [eexists; reflexivity|eapply dl_row; [reflexivity|cbn; tauto]|].
  apply (rn_data ex_num LROWS _ [IRow RG "r1"]); [eexists; reflexivity|eapply dl_row; [reflexivity|cbn; tauto]|].
  apply (rn_data ex_num LROWS _ [IRow RE "r2"]); [eexists; reflexivity|eapply dl_row; [reflexivity|cbn; tauto]|].
  hd LCOLUMNS.
  apply (rn_data ex_num LCOLUMNS _ [ICol "x" "r1" 1; ICol "x" "r2" (-3)]); [eexists; reflexivity|eapply dl_col2; reflexivity|].
  apply (rn_data ex_num LCOLUMNS _ [ICol "x" "cost" 2]); [eexists; reflexivity|eapply dl_col1; reflexivity|].
  apply (rn_data ex_num LCOLUMNS _ [ICol "y" "r1" (1/2)]); [eexists; reflexivity|eapply dl_col1; reflexivity|].
  apply rn_skip; [now left|]. hd LRHS.
  apply (rn_data ex_num LRHS _ [IRhs "b" "r1" 2; IRhs "b" "cost" 1]); [eexists; reflexivity|eapply dl_rhs2; reflexivity|].
  hd LRANGES.
  apply (rn_data ex_num LRANGES _ [IRng "d" "r2" 1]); [eexists; reflexivity|eapply dl_rng1; reflexivity|].
  hd LBOUNDS.
  apply (rn_data ex_num LBOUNDS _ [IBnd BUP "x" 1]); [eexists; reflexivity|eapply (dl_bnd _ _ BUP); try reflexivity; discriminate|].
  apply (rn_data ex_num LBOUNDS _ [IBnd BFR "y" 0]); [eexists; reflexivity|eapply dl_fr; reflexivity|].
  hd LQUADOBJ.
  apply (rn_data ex_num LQUADOBJ _ [IQuad "x" "x" 2; IQuad "x" "y" (-3)]); [eexists; reflexivity|eapply dl_quad2; reflexivity|].
  apply (rn_data ex_num LQUADOBJ _ [IQuad "y" "y" 1]); [eexists; reflexivity|eapply dl_quad1; reflexivity|].
  hd LENDATA. apply rn_end.
Qed.
Ltac ins H := cbn in H; repeat (destruct H as [H|H]; [try discriminate H|]); try contradiction.
Lemma ex_consistent : consistent ex_items.
Proof.
  constructor.
  - exists (firstn 3 ex_items), (firstn 4 (skipn 3 ex_items)), (skipn 7 ex_items). split; [reflexivity|].
    split; [|split]; intros i H; cbn in H; repeat destruct H as [<-|H]; try exact I; contradiction.
  - cbn. repeat constructor; cbn; intuition discriminate.
  - intros r r' H H'. ins H; ins H'. congruence.
  - intros c r v H. ins H; injection H as <- <- <-; eexists; cbn; tauto.
  - intros c r v H. ins H; injection H as <- <- <-; eexists; cbn; tauto.
  - intros c r v H. ins H; injection H as <- <- <-; eexists; (split; [cbn; tauto|discriminate]).
  - intros t c v H. ins H; injection H as <- <- <-; cbn; tauto.
  - intros t c v H. ins H; injection H as <- <- <-; cbn; tauto.
  - intros s s' r r' v v' H H'. ins H; ins H'; congruence.
  - intros s s' r r' v v' H H'. ins H; ins H'; congruence.
  - intros c r v v' H H'. ins H; ins H'; congruence.
  - intros s s' r v v' H H'. ins H; ins H'; congruence.
  - cbn. repeat constructor; cbn; intuition discriminate.
  - intros c r v v' H H'. ins H; ins H'; congruence.
Qed.
Example ex_read : exists q p s, read ex_rd (@rev _) (rd_new true) (unlines ex_file) = Val (q, p, s) /\ denotes true ex_items q p /\
  pp_nbVar p = 2%nat /\ pp_nbCstr p = 2%nat /\ ma (qpG q) 0 1 = -3 /\ ba (fl (qpF q)) 1 = Some 0 /\ ba (fu (qpF q)) 1 = Some 1 /\ qpcst q = -1.
Proof.
  destruct (C58_reads ex_rd ex_num (@rev _) true ex_file ex_items LENDATA ex_reads) as (q & p & s & E & D).
  - intros l. apply Permutation_sym, Permutation_rev.
  - intros l H. cbn in H. repeat destruct H as [<-|H]; try reflexivity. contradiction.
  - exact ex_renders.
  - exact ex_consistent.
  - exists q, p, s. split; [exact E|]. split; [exact D|]. destruct (de_p _ _ _ _ D) as (P1 & P2 & _). split; [exact P1|]. split; [exact P2|].
    pose proof (de_G _ _ _ _ D 0%nat 1%nat "y"%string "x"%string eq_refl eq_refl) as G1. pose proof (de_G _ _ _ _ D 1%nat 0%nat "x"%string "y"%string eq_refl eq_refl) as G2. cbn in G1, G2.
    split; [rewrite G1; apply G2; cbn; tauto|].
    assert (H0 : rhs_is ex_items "r2" 0) by (right; split; [reflexivity|intros n v H; ins H]).
    destruct (de_lu _ _ _ _ D 1%nat RE "r2"%string 0 eq_refl H0) as [_ Q]. specialize (Q "d"%string 1). unfold ranged in Q.
    destruct (Rleb_spec 0 1) as [P|P]; [|lra]. specialize (Q ltac:(cbn; tauto)). injection Q as Q1 Q2. split; [exact Q1|]. split; [rewrite Q2; f_equal; rewrite Rabs_right by lra; lra|].
    destruct (de_cst _ _ _ _ D) as [K _]. rewrite (K "b" "cost" 1)%string; [lra|cbn; tauto|cbn; tauto].
Qed.
(** the same file with a line of blanks after the tenth line, or with a bound without a value *)
Lemma ex_prefix : renders ex_num LOTHER (firstn 13 ex_file) (firstn 9 ex_items) LRHS.
Proof.
  unfold ex_file, ex_items. cbn [firstn].
  apply rn_skip; [right; eexists; reflexivity|]. hd LNAME. hd LROWS.
  apply (rn_data ex_num LROWS _ [IRow RN "cost"]); [eexists; reflexivity|eapply dl_row; [reflexivity|cbn; tauto]|].
  apply (rn_data ex_num LROWS _ [IRow RG "r1"]); [eexists; reflexivity|eapply dl_row; [reflexivity|cbn; tauto]|].
  apply (rn_data ex_num LROWS _ [IRow RE "r2"]); [eexists; reflexivity|eapply dl_row; [reflexivity|cbn; tauto]|].
  hd LCOLUMNS.
  apply (rn_data ex_num LCOLUMNS _ [ICol "x" "r1" 1; ICol "x" "r2" (-3)]); [eexists; reflexivity|eapply dl_col2; reflexivity|].
  apply (rn_data ex_num LCOLUMNS _ [ICol "x" "cost" 2]); [eexists; reflexivity|eapply dl_col1; reflexivity|].
  apply (rn_data ex_num LCOLUMNS _ [ICol "y" "r1" (1/2)]); [eexists; reflexivity|eapply dl_col1; reflexivity|].
  apply rn_skip; [now left|]. hd LRHS.
  apply (rn_data ex_num LRHS _ [IRhs "b" "r1" 2; IRhs "b" "cost" 1] [] []); [eexists; reflexivity|eapply dl_rhs2; reflexivity|apply rn_end].
Qed.
Lemma ex_prefix_consistent : consistent (firstn 9 ex_items).
Proof.
  constructor.
  - exists (firstn 3 ex_items), (firstn 4 (skipn 3 ex_items)), (firstn 2 (skipn 7 ex_items)). split; [reflexivity|].
    split; [|split]; intros i H; cbn in H; repeat destruct H as [<-|H]; try exact I; contradiction.
  - cbn. repeat constructor; cbn; intuition discriminate.
  - intros r r' H H'. ins H; ins H'. congruence.
  - intros c r v H. ins H; injection H as <- <- <-; eexists; cbn; tauto.
  - intros c r v H. ins H; injection H as <- <- <-; eexists; cbn; tauto.
  - intros c r v H. ins H.
  - intros t c v H. ins H.
  - intros t c v H. ins H.
  - intros s s' r r' v v' H H'. ins H; ins H'; congruence.
  - intros s s' r r' v v' H H'. ins H.
  - intros c r v v' H H'. ins H; ins H'; congruence.
  - intros s s' r v v' H H'. ins H; ins H'; congruence.
  - cbn. constructor.
  - intros c r v v' H H'. ins H.
Qed.
Example ex_blank : read ex_rd (@rev _) (rd_new true) (unlines (firstn 13 ex_file ++ "   "%string :: skipn 13 ex_file)) = Und.
Proof.
  apply (C59_blank_line_undefined ex_rd ex_num (@rev _) true (firstn 13 ex_file) (firstn 9 ex_items) LRHS _ _ ex_reads ex_prefix ex_prefix_consistent).
  - intros l H. cbn in H. repeat destruct H as [<-|H]; try reflexivity. contradiction.
  - cbn. tauto.
  - cbn. lia.
  - split; [eexists; reflexivity|reflexivity].
Qed.
Example ex_minus_infinity : read ex_rd (@rev _) (rd_new true) (unlines ((firstn 13 ex_file ++ ["BOUNDS"%string]) ++ " MI bnd x"%string :: skipn 18 ex_file)) = Exc.
Proof.
  apply (C58_infinite_bound_refused ex_rd ex_num (@rev _) true (firstn 13 ex_file ++ ["BOUNDS"%string]) (firstn 9 ex_items) _ _ "bnd"%string "x"%string "MI"%string ex_reads).
  - assert (K : forall sc ls its e, renders ex_num sc ls its e -> renders ex_num sc (ls ++ ["BOUNDS"%string]) its LBOUNDS).
    { induction 1 as [sc|sc l ls its e K R0 IH|sc l t w ws ls its e NS T KW NM R0 IH|sc l i1 ls i2 e SP D R0 IH]; cbn [app].
      - hd LBOUNDS. apply rn_end.
      - now apply rn_skip.
      - eapply rn_head; eauto.
      - eapply rn_data; eauto. }
    exact (K _ _ _ _ ex_prefix).
  - exact ex_prefix_consistent.
  - intros l H. cbn in H. repeat destruct H as [<-|H]; try reflexivity. contradiction.
  - eexists; reflexivity.
  - reflexivity.
  - now left.
Qed.
Example ex_refused : read ex_rd (@rev _) (rd_new true) (unlines (firstn 13 ex_file ++ "    b  r2  1  r9  1"%string :: skipn 13 ex_file)) = Exc.
Proof.
  apply (C59_refuses ex_rd ex_num (@rev _) true (firstn 13 ex_file) (firstn 9 ex_items) LRHS _ [IRhs "b" "r2" 1] (IRhs "b" "r9" 1) [] _ ex_reads ex_prefix).
  - intros l H. cbn in H. repeat destruct H as [<-|H]; try reflexivity. contradiction.
  - eexists; reflexivity.
  - eapply dl_rhs2; reflexivity.
  - constructor.
    + exists (firstn 3 ex_items), (firstn 4 (skipn 3 ex_items)), (firstn 2 (skipn 7 ex_items) ++ [IRhs "b" "r2" 1]). split; [reflexivity|].
      split; [|split]; intros i H; cbn in H; repeat destruct H as [<-|H]; try exact I; contradiction.
    + cbn. repeat constructor; cbn; intuition discriminate.
    + intros r r' H H'. ins H; ins H'. congruence.
    + intros c r v H. ins H; injection H as <- <- <-; eexists; cbn; tauto.
    + intros c r v H. ins H; injection H as <- <- <-; eexists; cbn; tauto.
    + intros c r v H. ins H.
    + intros t c v H. ins H.
    + intros t c v H. ins H.
    + intros s s' r r' v v' H H'. ins H; ins H'; congruence.
    + intros s s' r r' v v' H H'. ins H.
    + intros c r v v' H H'. ins H; ins H'; congruence.
    + intros s s' r v v' H H'. ins H; ins H'; congruence.
    + cbn. constructor.
    + intros c r v v' H H'. ins H.
  - apply bd_rhs. intros t H. ins H.
Qed.

(** ** Lines that do not have the format of their section are refused *)
(** no number can be read where the word n starts *)
Definition no_number (rdnum : string -> option (R * string)) (n : string) : Prop := forall rest, rdnum (append n rest) = None.
Definition value_section (e : lt) : Prop := In e [LCOLUMNS; LRHS; LRANGES; LQUADOBJ].
Inductive malformed (rdnum : string -> option (R * string)) : lt -> string -> Prop :=
| mf_name e l w : ~ starts_with " " l -> tokens l = [w] -> in_small w = "name"%string -> malformed rdnum e l          (* NAME without a name *)
| mf_row_letter l c s ws : starts_with " " l -> tokens l = String c s :: ws -> (forall t, ~ row_letter t c) -> malformed rdnum LROWS l
| mf_row_noname l c : starts_with " " l -> tokens l = [String c EmptyString] -> malformed rdnum LROWS l
| mf_value_1 e l c : starts_with " " l -> value_section e -> tokens l = [c] -> malformed rdnum e l
| mf_value_2 e l c r : starts_with " " l -> value_section e -> tokens l = [c; r] -> malformed rdnum e l
| mf_value_num e l c r n ws : starts_with " " l -> value_section e -> tokens l = c :: r :: n :: ws -> no_number rdnum n -> malformed rdnum e l
| mf_bound_type l b ws : starts_with " " l -> tokens l = b :: ws -> (forall t, b <> bound_name t) -> malformed rdnum LBOUNDS l
| mf_bound_short l ws : starts_with " " l -> tokens l = ws -> (List.length ws <= 2)%nat -> malformed rdnum LBOUNDS l
| mf_bound_value l t set c : starts_with " " l -> t <> BFR -> tokens l = [bound_name t; set; c] -> malformed rdnum LBOUNDS l
| mf_bound_num l t set c n ws : starts_with " " l -> t <> BFR -> tokens l = bound_name t :: set :: c :: n :: ws -> no_number rdnum n -> malformed rdnum LBOUNDS l.
Lemma get_num_none rdnum s n ws : tokens s = n :: ws -> no_number rdnum n -> get_num rdnum s = None.
Proof.
  intros T H. unfold get_num. destruct (get_word_some _ _ _ T) as (r & _ & _ & _ & E & _). rewrite E. pose proof (H r) as K. destruct (append n r); auto.
Qed.
Lemma get_num_nil rdnum s : tokens s = [] -> get_num rdnum s = None.
Proof. intros T. unfold get_num. rewrite (proj1 (get_word_nil s) T). reflexivity. Qed.
Lemma bndType_none b : (forall t, b <> bound_name t) -> bndType b = None.
Proof.
  intros H. unfold bndType. cbn [assoc].
  repeat match goal with |- context [String.eqb b ?x] => destruct (String.eqb_spec b x) as [->|_] end; auto; exfalso.
  - apply (H BLO); reflexivity. - apply (H BUP); reflexivity. - apply (H BFX); reflexivity.
  - apply (H BFR); reflexivity. - apply (H BMI); reflexivity. - apply (H BPL); reflexivity.
Qed.
Lemma rowType_none c : (forall t, ~ row_letter t c) -> rowType c = None.
Proof.
  intros H. pose proof (H RE) as HE. pose proof (H RL) as HL. pose proof (H RG) as HG. pose proof (H RN) as HN. clear H.
  destruct c as [[] [] [] [] [] [] [] []]; cbn in *; try reflexivity; exfalso; intuition.
Qed.
Lemma get_char_cons s c w ws : tokens s = String c w :: ws -> exists r, get_char s = Some (c, r).
Proof.
  intros T. destruct (get_word_some _ _ _ T) as (r & _ & _ & _ & E & _). unfold get_char. rewrite E. cbn [append]. eauto.
Qed.
Lemma malformed_exc rdnum e l s : malformed rdnum e l -> r_sect s = e -> doLine rdnum s l = Exc.
Proof.
  intros M Hs. unfold doLine.
  assert (PV1 : forall k x, tokens l = [x] -> parseValueLine rdnum k l = Exc).
  { intros k x T. unfold parseValueLine. destruct (get_word_some _ _ _ T) as (r & -> & T1 & _). unfold readNamedValue1. rewrite (get_word_none _ T1). reflexivity. }
  assert (PV2 : forall k x y, tokens l = [x; y] -> parseValueLine rdnum k l = Exc).
  { intros k x y T. unfold parseValueLine. destruct (get_word_some _ _ _ T) as (r & -> & T1 & _). unfold readNamedValue1.
    destruct (get_word_some _ _ _ T1) as (r2 & -> & T2 & _). rewrite (get_num_nil _ _ T2). reflexivity. }
  assert (PV3 : forall k x y n ws, tokens l = x :: y :: n :: ws -> no_number rdnum n -> parseValueLine rdnum k l = Exc).
  { intros k x y n ws T NN. unfold parseValueLine. destruct (get_word_some _ _ _ T) as (r & -> & T1 & _). unfold readNamedValue1.
    destruct (get_word_some _ _ _ T1) as (r2 & -> & T2 & _). rewrite (get_num_none _ _ _ _ T2 NN). reflexivity. }
  assert (PR : forall k, value_section e -> (forall k, parseValueLine rdnum k l = Exc) -> k = next_line s -> processLine rdnum k l = Exc).
  { intros k V P ->. unfold processLine. cbn [r_sect next_line]. rewrite Hs. cbn in V.
    destruct V as [<-|[<-|[<-|[<-|[]]]]]; unfold readColumn, readRHS, readRanges, readQuadObj; rewrite P; reflexivity. }
  destruct M as [e l w NS T W|l c w ws SP T N|l c SP T|e l c SP V T|e l c r SP V T|e l c r n ws SP V T NN|l b ws SP T N|l ws SP T Hn|l t st c SP Ht T|l t st c n ws SP Ht T NN].
  - rewrite (lt_head l LNAME w [] NS T) by (rewrite W; reflexivity). unfold parseName. destruct (get_word_some _ _ _ T) as (r & -> & T1 & _).
    rewrite (get_word_none _ T1). reflexivity.
  - rewrite (lt_data l SP). unfold processLine. cbn [r_sect next_line]. rewrite Hs. unfold readRow, parseRow. destruct (get_char_cons _ _ _ _ T) as (r & ->).
    rewrite (rowType_none c N). reflexivity.
  - rewrite (lt_data l SP). unfold processLine. cbn [r_sect next_line]. rewrite Hs. unfold readRow, parseRow. destruct (get_char_some _ _ _ T) as (r & -> & T1).
    destruct (rowType c); [|reflexivity]. rewrite (get_word_none _ T1). reflexivity.
  - rewrite (lt_data l SP). apply PR; auto. intros k. eapply PV1; eauto.
  - rewrite (lt_data l SP). apply PR; auto. intros k. eapply PV2; eauto.
  - rewrite (lt_data l SP). apply PR; auto. intros k. eapply PV3; eauto.
  - rewrite (lt_data l SP). unfold processLine. cbn [r_sect next_line]. rewrite Hs. unfold readBounds. destruct (get_word_some _ _ _ T) as (r & -> & T1 & _).
    rewrite (bndType_none b N). reflexivity.
  - rewrite (lt_data l SP). unfold processLine. cbn [r_sect next_line]. rewrite Hs. unfold readBounds. destruct ws as [|a [|b [|x ws]]]; [| | |cbn in Hn; lia].
    + rewrite (get_word_none _ T). reflexivity.
    + destruct (get_word_some _ _ _ T) as (r & -> & T1 & _). destruct (bndType a); auto. rewrite (get_word_none _ T1). reflexivity.
    + destruct (get_word_some _ _ _ T) as (r & -> & T1 & _). destruct (bndType a) as [t|]; auto. destruct (get_word_some _ _ _ T1) as (r2 & -> & T2 & _).
      unfold readNamedValue1. rewrite (get_word_none _ T2). destruct t; reflexivity.
  - rewrite (lt_data l SP). unfold processLine. cbn [r_sect next_line]. rewrite Hs. unfold readBounds. destruct (get_word_some _ _ _ T) as (r & -> & T1 & _).
    rewrite name_type. destruct (get_word_some _ _ _ T1) as (r2 & -> & T2 & _). unfold readNamedValue1. destruct (get_word_some _ _ _ T2) as (r3 & -> & T3 & _).
    rewrite (get_num_nil _ _ T3). destruct t; try reflexivity. congruence.
  - rewrite (lt_data l SP). unfold processLine. cbn [r_sect next_line]. rewrite Hs. unfold readBounds. destruct (get_word_some _ _ _ T) as (r & -> & T1 & _).
    rewrite name_type. destruct (get_word_some _ _ _ T1) as (r2 & -> & T2 & _). unfold readNamedValue1. destruct (get_word_some _ _ _ T2) as (r3 & -> & T3 & _).
    rewrite (get_num_none _ _ _ _ T3 NN). destruct t; try reflexivity. congruence.
Qed.
Theorem C59_malformed : forall rdnum num ord full ls its e l rest, reads_numbers rdnum num -> renders num LOTHER ls its e -> consistent its ->
  no_newline (ls ++ l :: rest) -> malformed rdnum e l -> read rdnum ord (rd_new full) (unlines (ls ++ l :: rest)) = Exc.
Proof.
  intros rdnum num ord full ls its e l rest RN Rn CO NL M. destruct (read_lines rdnum num full ls its _ RN Rn CO) as (s & E & H & Ln & SC).
  unfold read. rewrite (getlines_unlines _ NL), lines_app, E. cbn [obind doLines]. rewrite (malformed_exc rdnum e l s M SC). reflexivity.
Qed.
(** a NAME line without a name, an unknown row type *)
Example C59_malformed_nonvacuous : let ls := ["NAME P"; "ROWS"; " N cost"]%string in
  reads_numbers (fun _ => None) (fun _ => None) /\ renders (fun _ => None) LOTHER ls [IRow RN "cost"] LROWS /\ consistent [IRow RN "cost"] /\
  malformed (fun _ => None) LROWS " Q r1" /\ malformed (fun _ => None) LROWS "NAME" /\
  no_newline (ls ++ [" Q r1"%string]) /\ no_newline (ls ++ ["NAME"%string]).
Proof.
  cbv zeta. split; [intros tok v rest H; discriminate H|]. split.
  { eapply (rn_head _ _ _ LNAME); [intros (l' & H); discriminate H|reflexivity|reflexivity|discriminate|].
    eapply (rn_head _ _ _ LROWS); [intros (l' & H); discriminate H|reflexivity|reflexivity|discriminate|].
    change [IRow RN "cost"] with ([IRow RN "cost"] ++ []). apply rn_data; [eexists; reflexivity| |constructor]. eapply (dl_row _ _ "N"); [reflexivity|left; reflexivity]. }
  split. { constructor; cbn; try (intros; intuition (try discriminate; try congruence)); try (repeat constructor; cbn; tauto).
    exists [IRow RN "cost"], [], []. repeat split; intros i Hi; cbn in Hi; intuition; subst; exact I. }
  split. { eapply (mf_row_letter _ _ "Q"); [eexists; reflexivity|reflexivity|]. intros [] [H|H]; discriminate H. }
  split. { eapply mf_name; [intros (l' & H); discriminate H|reflexivity|reflexivity]. }
  split; intros l Hl; cbn in Hl; intuition (subst l; reflexivity).
Qed.

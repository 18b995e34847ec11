(** Lemmas on the text written by the logger and on its reading (MatlabSpec.v). *)
From Coq Require Import List Arith ZArith NArith Lia Bool Ascii String DecimalString DecimalZ DecimalFacts.
From Verif Require Import Base ActiveSet Util LogText MatlabSpec.
Import ListNotations.
Local Open Scope string_scope.

(** ** Strings *)
Lemma sapp_assoc (a b c : string) : ((a ++ b) ++ c = a ++ (b ++ c))%string.
Proof. induction a; simpl; congruence. Qed.
Lemma sapp_nil (a : string) : (a ++ "" = a)%string.
Proof. induction a; simpl; congruence. Qed.
Lemma sapp_inv (a b c : string) : a ++ b = a ++ c -> b = c.
Proof. induction a; simpl; intros H; [exact H|]. injection H. auto. Qed.
Lemma has_app p a b : has p (a ++ b) = has p a || has p b.
Proof. induction a; simpl; auto. rewrite IHa, orb_assoc. reflexivity. Qed.
Lemma has_weak (p q : ascii -> bool) s : (forall c, q c = true -> p c = true) -> has p s = false -> has q s = false.
Proof.
  intros Hq. induction s as [|c s IH]; simpl; auto. rewrite orb_false_iff. intros [H1 H2]. rewrite (IH H2), orb_false_r.
  destruct (q c) eqn:E; auto. rewrite (Hq _ E) in H1. discriminate.
Qed.
Lemma concat_map_app {A} (f : A -> string) l1 l2 : concat_map f (l1 ++ l2) = concat_map f l1 ++ concat_map f l2.
Proof. induction l1; simpl; auto. rewrite IHl1, sapp_assoc. reflexivity. Qed.
Lemma upto_seq k : upto k = seq 0 k.
Proof. induction k; simpl upto; auto. rewrite seq_S, IHk. reflexivity. Qed.

(** ** Pieces *)
Lemma pieces_sep p a c b : p c = true -> pieces p (a ++ String c b) = (pieces p a ++ pieces p b)%list.
Proof.
  intros Hc. unfold pieces. assert (H : forall a, pieces_ p (a ++ String c b) = let '(w, l) := pieces_ p a in (w, (l ++ pieces p b)%list)).
  { clear a. induction a as [|d a IH]; simpl.
    - unfold pieces. destruct (pieces_ p b) as [w l]. rewrite Hc. reflexivity.
    - rewrite IH. destruct (pieces_ p a) as [w l]. destruct (p d); auto. destruct w; reflexivity. }
  rewrite H. fold (pieces p b). destruct (pieces_ p a) as [w l]. destruct w; reflexivity.
Qed.
Lemma pieces_word p w : has p w = false -> pieces p w = keep w [].
Proof.
  unfold pieces. intros H. assert (K : pieces_ p w = (w, [])).
  { induction w as [|c w IH]; simpl in *; auto. apply orb_false_iff in H as [H1 H2]. rewrite (IH H2), H1. reflexivity. }
  rewrite K. reflexivity.
Qed.
Lemma pieces_spaces n s : pieces elem_sep (spaces n ++ s) = pieces elem_sep s.
Proof. induction n; auto. change (spaces (S n) ++ s) with ("" ++ String " " (spaces n ++ s)). rewrite pieces_sep by reflexivity. exact IHn. Qed.

(** ** Words *)
Lemma word_no p w : (forall c, p c = true -> special c = true) -> word w -> has p w = false.
Proof. intros H [_ K]. exact (has_weak special p w H K). Qed.
Ltac sp := intros c; unfold elem_sep, row_sep, bracket, opens, closes, special, is; intros H; repeat rewrite orb_true_iff in *; intuition.
Definition inside (c : ascii) : bool := negb (is c "%" || opens c || closes c).
Definition outside (c : ascii) : bool := negb (inside c).
Lemma outside_special c : outside c = true -> special c = true.
Proof. unfold outside, inside. rewrite negb_involutive. unfold opens, closes, special, is. repeat rewrite orb_true_iff. tauto. Qed.
Lemma bracket_outside c : bracket c = true -> outside c = true.
Proof. unfold outside, inside. rewrite negb_involutive. unfold opens, closes, bracket, is. repeat rewrite orb_true_iff. tauto. Qed.
Lemma elem_special c : elem_sep c = true -> special c = true. Proof. revert c; sp. Qed.
Lemma row_special c : row_sep c = true -> special c = true. Proof. revert c; sp. Qed.
Lemma bracket_special c : bracket c = true -> special c = true. Proof. revert c; sp. Qed.
Lemma word_pieces w : word w -> pieces elem_sep w = [w].
Proof. intros H. rewrite pieces_word by (apply word_no; auto; apply elem_special). destruct w; [destruct H as [H _]; contradiction H; reflexivity|reflexivity]. Qed.
Lemma word_app a b : word a -> has special b = false -> word (a ++ b).
Proof. intros [H1 H2] H. split; [destruct a; [contradiction H1; reflexivity|discriminate]|]. rewrite has_app, H2, H. reflexivity. Qed.

Fixpoint udigits (u : Decimal.uint) : has special (NilZero.string_of_uint u) = false /\ has special (NilEmpty.string_of_uint u) = false.
Proof. destruct u; simpl; split; auto; apply (udigits u). Qed.
Lemma uint_nonnil u : NilZero.string_of_uint u <> "".
Proof. destruct u; discriminate. Qed.
Lemma word_int z : word (show_int z).
Proof.
  unfold show_int, word. destruct (Z.to_int z) as [u|u]; cbn [NilZero.string_of_int].
  - split; [apply uint_nonnil|apply udigits].
  - split; [discriminate|]. cbn [has]. rewrite (proj1 (udigits u)). reflexivity.
Qed.
Lemma nb_digits u : forall c, In c [")"%char; "."%char] -> has (is c) (NilZero.string_of_uint u) = false /\ has (is c) (NilEmpty.string_of_uint u) = false.
Proof.
  intros c Hc. assert (K : forall u, has (is c) (NilEmpty.string_of_uint u) = false).
  { clear u. induction u; simpl; auto; rewrite IHu; destruct Hc as [<-|[<-|[]]]; reflexivity. }
  split; auto. destruct u; simpl; auto; try rewrite K; destruct Hc as [<-|[<-|[]]]; reflexivity.
Qed.
Lemma int_no_paren z : has (is ")") (show_int z) = false.
Proof.
  unfold show_int. destruct (Z.to_int z) as [u|u]; cbn [NilZero.string_of_int has]; [apply nb_digits; simpl; auto|].
  rewrite (proj1 (nb_digits u ")" (or_introl eq_refl))). reflexivity.
Qed.
Lemma show_int_inj a b : show_int a = show_int b -> a = b.
Proof.
  unfold show_int. intros H. assert (K : forall z, NilZero.int_of_string (NilZero.string_of_int (Z.to_int z)) = Some (Z.to_int z)).
  { intros z. apply NilZero.isi; destruct z as [|p|p]; cbn; try discriminate; intros E; injection E as E;
      pose proof (DecimalPos.Unsigned.to_uint_nonnil p); contradiction. }
  pose proof (K a) as Ha. rewrite H, K in Ha. injection Ha as Ha. apply (f_equal Z.of_int) in Ha. rewrite !DecimalZ.of_to in Ha. auto.
Qed.
Lemma split_paren a b s t : has (is ")") a = false -> has (is ")") b = false -> a ++ String ")" s = b ++ String ")" t -> a = b /\ s = t.
Proof.
  revert b. induction a as [|c a IH]; intros [|d b] Ha Hb E; simpl in *.
  - injection E. auto.
  - injection E as <- _. discriminate.
  - injection E as -> _. discriminate.
  - apply orb_false_iff in Ha as [_ Ha], Hb as [_ Hb]. injection E as -> E. destruct (IH b Ha Hb E) as [-> ->]. auto.
Qed.
Lemma element_inj name i j f g : element name i f = element name j g -> i = j /\ f = g.
Proof.
  unfold element, decimal. intros H. apply sapp_inv in H. cbn in H. injection H as H.
  apply split_paren in H; try apply int_no_paren. destruct H as [H1 H2]. split; [apply show_int_inj; exact H1|]. injection H2; auto.
Qed.

(** ** Matrices *)
Lemma forallb_filter_id {A} (f : A -> bool) l : forallb f l = true -> filter f l = l.
Proof. induction l as [|a l IH]; cbn; auto. rewrite andb_true_iff. intros [-> H]. rewrite IH; auto. Qed.
Section Mat.
Context {V : Type} (show : V -> string).
Lemma pieces_padded w s : word s -> pieces elem_sep (padded w s) = [s].
Proof. intros H. unfold padded. rewrite pieces_spaces. apply word_pieces, H. Qed.
Lemma has_spaces p n : p " "%char = false -> has p (spaces n) = false.
Proof. intros H. induction n; simpl; auto. rewrite H. exact IHn. Qed.
Lemma row_no_sep w s : word s -> has row_sep (padded w s) = false.
Proof. intros H. unfold padded. rewrite has_app, has_spaces by reflexivity. apply word_no; auto. apply row_special. Qed.
Lemma pad_no_bracket w s : word s -> has outside (padded w s) = false.
Proof. intros H. unfold padded. rewrite has_app, has_spaces by reflexivity. apply word_no; auto. apply outside_special. Qed.
Lemma padded_nonempty w s : word s -> padded w s <> "".
Proof. intros [H _]. unfold padded. destruct (spaces _); [exact H|discriminate]. Qed.

Lemma print_row_pieces w c m i (P : string) R : (forall j, (j < Datatypes.S c)%nat -> word (show (m i j))) ->
  pieces elem_sep (spaces R ++ print_row show (Fmt ", " P "" "" "[" "]") w (Datatypes.S c) m i) = map (fun j => show (m i j)) (seq 0 (Datatypes.S c)).
Proof.
  intros H. rewrite pieces_spaces. unfold print_row. cbn [coeffSep]. replace (Datatypes.S c - 1)%nat with c by lia.
  rewrite upto_seq. revert H. induction c as [|c IH]; intros H.
  - simpl. rewrite sapp_nil. rewrite pieces_padded by auto. reflexivity.
  - rewrite seq_S, concat_map_app, <- sapp_assoc. cbn [concat_map]. rewrite sapp_nil. change (", " ++ padded w (show (m i (Datatypes.S (0 + c))))) with (String "," (String " " (padded w (show (m i (Datatypes.S c)))))).
    rewrite pieces_sep by reflexivity. rewrite IH by (intros; apply H; lia).
    change (String " " (padded w (show (m i (Datatypes.S c))))) with ("" ++ String " " (padded w (show (m i (Datatypes.S c))))).
    rewrite pieces_sep by reflexivity. rewrite pieces_padded by (apply H; lia).
    rewrite (seq_S (Datatypes.S c)), map_app. reflexivity.
Qed.
Lemma print_row_has p w c m i f : p " "%char = false -> has p (coeffSep f) = false -> (forall j, (j < Datatypes.S c)%nat -> has p (show (m i j)) = false) ->
  has p (print_row show f w (Datatypes.S c) m i) = false.
Proof.
  intros Hs Hf H. assert (K : forall j, (j < Datatypes.S c)%nat -> has p (padded w (show (m i j))) = false).
  { intros j Hj. unfold padded. rewrite has_app, has_spaces by exact Hs. apply H, Hj. }
  unfold print_row. rewrite has_app, K by lia. simpl orb. replace (Datatypes.S c - 1)%nat with c by lia. rewrite upto_seq.
  assert (L : forall k, (k <= c)%nat -> has p (concat_map (fun j => coeffSep f ++ padded w (show (m i (Datatypes.S j)))) (seq 0 k)) = false).
  { induction k; intros Hk; auto. rewrite seq_S, concat_map_app, has_app, IHk by lia. simpl. rewrite sapp_nil, has_app, Hf. apply K. lia. }
  apply L. lia.
Qed.
Lemma print_row_nonempty f w c m i : word (show (m i 0%nat)) -> print_row show f w c m i <> "".
Proof. intros H. unfold print_row. pose proof (padded_nonempty w _ H). destruct (padded w (show (m i 0%nat))); [contradiction|discriminate]. Qed.

(** a matrix with at least two columns (any number, in fact), row by row *)
Definition wide : iofmt := Fmt ", " (";" ++ nl) "" "" "[" "]".
Definition line (r c w : nat) (m : nat -> nat -> V) (i : nat) : string := (if (i =? 0)%nat then "" else " ") ++ print_row show wide w c m i.
Definition body (r c w : nat) (m : nat -> nat -> V) (k : nat) : string :=
  concat_map (fun i => (if (i =? 0)%nat then "" else rowSpacer wide) ++ rowPrefix wide ++ print_row show wide w c m i ++ rowSuffix wide ++ (if (i <? r - 1)%nat then rowSep wide else "")) (upto k).
Lemma body_S r c w m k : body r c w m (Datatypes.S k) = body r c w m k ++ line r c w m k ++ (if (k <? r - 1)%nat then ";" ++ nl else "").
Proof.
  unfold body. cbn [upto]. rewrite concat_map_app. f_equal. cbn [concat_map]. rewrite sapp_nil. unfold line, wide. cbn [rowPrefix rowSuffix rowSep]. change (rowSpacer (Fmt ", " (";" ++ nl) "" "" "[" "]")) with " ".
  rewrite sapp_assoc. reflexivity.
Qed.
Section Wide.
Variables (r c w : nat) (m : nat -> nat -> V).
Hypothesis Hw : forall i j, (i < r)%nat -> (j < Datatypes.S c)%nat -> word (show (m i j)).
Lemma line_row i : (i < r)%nat -> has row_sep (line r (Datatypes.S c) w m i) = false /\ line r (Datatypes.S c) w m i <> "" /\ pieces elem_sep (line r (Datatypes.S c) w m i) = map (fun j => show (m i j)) (seq 0 (Datatypes.S c)) /\
  has outside (line r (Datatypes.S c) w m i) = false.
Proof.
  intros Hi. unfold line. rewrite !has_app. rewrite !print_row_has; try reflexivity; try (intros; apply word_no; auto; [apply outside_special || apply row_special]).
  assert (E : (if (i =? 0)%nat then "" else " ") = spaces (if (i =? 0)%nat then 0 else 1)) by (destruct (i =? 0)%nat; reflexivity).
  split; [destruct (i =? 0)%nat; reflexivity|]. split; [|split; [rewrite E; apply print_row_pieces; auto|destruct (i =? 0)%nat; reflexivity]].
  pose proof (print_row_nonempty wide w (Datatypes.S c) m i (Hw _ _ Hi (Nat.lt_0_succ _))) as H. destruct (i =? 0)%nat; [exact H|discriminate].
Qed.
Lemma body_pieces k s : (k <= r - 1)%nat -> pieces row_sep (body r (Datatypes.S c) w m k ++ s) = (map (line r (Datatypes.S c) w m) (seq 0 k) ++ pieces row_sep s)%list.
Proof.
  revert s. induction k as [|k IH]; intros s Hk; [reflexivity|]. rewrite body_S, !sapp_assoc, IH by lia.
  rewrite (proj2 (Nat.ltb_lt _ _)) by lia. destruct (line_row k) as (H1 & H2 & _); [lia|].
  change ((";" ++ nl) ++ s) with (String ";" (String newline s)).
  rewrite pieces_sep by reflexivity. rewrite (pieces_sep row_sep "" newline s eq_refl : pieces row_sep (String newline s) = _).
  rewrite pieces_word by exact H1. rewrite seq_S, map_app, <- app_assoc. f_equal. cbn [map Nat.add]. destruct (line r (Datatypes.S c) w m k); [contradiction H2; reflexivity|reflexivity].
Qed.
Lemma body_all : (0 < r)%nat -> rows_of (body r (Datatypes.S c) w m r) = table show r (Datatypes.S c) m.
Proof.
  intros Hr. destruct r as [|r'] eqn:Er; [lia|]. rewrite <- Er in *. rewrite Er at 2. rewrite body_S. replace (r' <? r - 1)%nat with false by (symmetry; apply Nat.ltb_ge; lia). rewrite sapp_nil.
  unfold rows_of. rewrite body_pieces by lia. destruct (line_row r') as (H1 & H2 & _); [lia|]. rewrite pieces_word by exact H1.
  assert (E : keep (line r (Datatypes.S c) w m r') [] = [line r (Datatypes.S c) w m r']) by (destruct (line r (Datatypes.S c) w m r'); [contradiction H2; reflexivity|reflexivity]).
  rewrite E. replace (map (line r (Datatypes.S c) w m) (seq 0 r') ++ [line r (Datatypes.S c) w m r'])%list with (map (line r (Datatypes.S c) w m) (seq 0 r)) by (rewrite Er at 2; rewrite seq_S, map_app; reflexivity).
  rewrite map_map. unfold table. rewrite (map_ext_in _ (fun i => map (fun j => show (m i j)) (seq 0 (Datatypes.S c)))).
  - rewrite forallb_filter_id; auto. apply forallb_forall. intros x Hx. apply in_map_iff in Hx as (i & <- & _). reflexivity.
  - intros i Hi. apply in_seq in Hi. apply line_row. lia.
Qed.
Lemma body_bracket k : (k <= r)%nat -> has outside (body r (Datatypes.S c) w m k) = false.
Proof.
  induction k as [|k IH]; intros Hk; [reflexivity|]. rewrite body_S, !has_app, IH by lia. destruct (line_row k) as (_ & _ & _ & ->); [lia|]. destruct (k <? r - 1)%nat; reflexivity.
Qed.
End Wide.

(** a column *)
Definition tall : iofmt := Fmt "; " ";" "" "" "[" "]".
Lemma tall_pieces w n m : (forall j, (j < Datatypes.S n)%nat -> word (show (m 0%nat j))) ->
  rows_of (print_row show tall w (Datatypes.S n) m 0) = map (fun j => [show (m 0%nat j)]) (seq 0 (Datatypes.S n)).
Proof.
  intros H. assert (K : map (pieces elem_sep) (pieces row_sep (print_row show tall w (Datatypes.S n) m 0)) = map (fun j => [show (m 0%nat j)]) (seq 0 (Datatypes.S n))).
  { unfold print_row. cbn [coeffSep tall]. replace (Datatypes.S n - 1)%nat with n by lia. rewrite upto_seq. revert H. induction n as [|n IH]; intros H.
    - cbn [seq concat_map map]. rewrite sapp_nil, pieces_word by (apply row_no_sep; auto). pose proof (padded_nonempty w _ (H 0%nat (Nat.lt_0_succ _))) as K. pose proof (pieces_padded w _ (H 0%nat (Nat.lt_0_succ _))) as L.
      destruct (padded w (show (m 0%nat 0%nat))); [contradiction K; reflexivity|]. cbn [keep map]. rewrite L. reflexivity.
    - rewrite seq_S, concat_map_app, <- sapp_assoc. cbn [concat_map]. rewrite sapp_nil. change ("; " ++ padded w (show (m 0%nat (Datatypes.S (0 + n))))) with (String ";" (String " " (padded w (show (m 0%nat (Datatypes.S n)))))).
      rewrite pieces_sep by reflexivity. rewrite map_app, IH by (intros; apply H; lia).
      rewrite pieces_word; [|cbn [has]; rewrite row_no_sep by (apply H; lia); reflexivity].
      cbn [keep map]. change (String " " (padded w (show (m 0%nat (Datatypes.S n))))) with ("" ++ String " " (padded w (show (m 0%nat (Datatypes.S n))))).
      rewrite pieces_sep by reflexivity. rewrite pieces_padded by (apply H; lia). rewrite (seq_S (Datatypes.S n)), map_app. reflexivity. }
  unfold rows_of. rewrite K. rewrite forallb_filter_id; auto. apply forallb_forall. intros x Hx. apply in_map_iff in Hx as (i & <- & _). reflexivity.
Qed.

Lemma toMatlab_body r c m : (0 < r)%nat -> (0 < c)%nat -> (forall i j, (i < r)%nat -> (j < c)%nat -> word (show (m i j))) ->
  exists b, toMatlab show r c m = "[" ++ b ++ "]" /\ has outside b = false /\ rows_of b = table show r c m.
Proof.
  intros Hr Hc H. unfold toMatlab. destruct (Nat.eqb_spec c 1) as [->|Hn].
  - unfold print_matrix. rewrite (proj2 (Nat.eqb_neq _ _)) by lia. set (w := width show 1 r _). destruct r as [|n]; [lia|].
    exists (print_row show tall w (Datatypes.S n) (fun i j => m j i) 0). split; [|split].
    + change (upto 1) with [0%nat]. cbn [concat_map matPrefix matSuffix rowPrefix rowSuffix Nat.eqb Nat.ltb Nat.leb Nat.sub append]. rewrite !sapp_nil. reflexivity.
    + apply print_row_has; try reflexivity. intros j Hj. apply word_no; [apply outside_special|]. apply H; lia.
    + rewrite tall_pieces by (intros; apply H; lia). reflexivity.
  - unfold print_matrix. rewrite (proj2 (Nat.eqb_neq _ _)) by nia. set (w := width show r c m). destruct c as [|c]; [lia|].
    exists (body r (Datatypes.S c) w m r). split; [reflexivity|]. split; [apply body_bracket; auto|apply body_all; auto].
Qed.
End Mat.

(** ** Reading statements *)
Definition inert (m : mode) (a : string) (m' : mode) : Prop := forall s, scan m (a ++ s) = let '(w, l) := scan m' s in (a ++ w, l).
Lemma inert_nil m : inert m "" m.
Proof. intros s. simpl. destruct (scan m s). reflexivity. Qed.
Lemma inert_app m1 a m2 b m3 : inert m1 a m2 -> inert m2 b m3 -> inert m1 (a ++ b) m3.
Proof. intros H1 H2 s. rewrite sapp_assoc, H1, H2. destruct (scan m3 s). rewrite sapp_assoc. reflexivity. Qed.
Definition plain (c : ascii) : bool := negb (is c "%" || row_sep c || opens c || closes c).
Lemma inert_char c d : plain c = true -> inert (Code d) (String c "") (Code d).
Proof.
  intros H s. unfold plain in H. rewrite negb_true_iff, !orb_false_iff in H. destruct H as [[[H1 H2] H3] H4]. cbn [append scan]. rewrite H1, H2, H3, H4. cbn [andb]. destruct (scan (Code d) s). reflexivity.
Qed.
Lemma inert_char_in c d : row_sep c = true -> inert (Code (Datatypes.S d)) (String c "") (Code (Datatypes.S d)).
Proof.
  intros H s. cbn [append scan]. assert (E : is c "%" = false /\ opens c = false /\ closes c = false).
  { unfold row_sep, is in H. apply orb_true_iff in H as [H|H]; apply Ascii.eqb_eq in H; subst c; repeat split; reflexivity. }
  destruct E as (-> & -> & ->). rewrite andb_false_r. destruct (scan (Code (Datatypes.S d)) s). reflexivity.
Qed.
Lemma inert_plain s d : has (fun c => negb (plain c)) s = false -> inert (Code d) s (Code d).
Proof.
  induction s as [|c s IH]; intros H; [apply inert_nil|]. cbn [has] in H. apply orb_false_iff in H as [H1 H2]. apply negb_false_iff in H1.
  change (String c s) with (String c "" ++ s). eapply inert_app; [apply inert_char, H1|apply IH, H2].
Qed.
Lemma inert_word w d : word w -> inert (Code d) w (Code d).
Proof.
  intros H. apply inert_plain. apply word_no; auto. unfold plain. intros c K. rewrite negb_involutive in K. unfold special, row_sep, opens, closes, is in *. repeat rewrite orb_true_iff in *. intuition.
Qed.
(** the characters inside a bracket *)
Lemma inert_inside s d : has outside s = false -> inert (Code (Datatypes.S d)) s (Code (Datatypes.S d)).
Proof.
  induction s as [|c s IH]; intros H; [apply inert_nil|]. cbn [has] in H. apply orb_false_iff in H as [H1 H2]. apply negb_false_iff in H1.
  change (String c s) with (String c "" ++ s). eapply inert_app; [|apply IH, H2]. unfold inside in H1. rewrite negb_true_iff, !orb_false_iff in H1. destruct H1 as [[A B] C].
  destruct (row_sep c) eqn:E; [apply inert_char_in, E|]. apply inert_char. unfold plain. rewrite A, B, C, E. reflexivity.
Qed.
Lemma inert_bracket o b e d : opens o = true -> closes e = true -> inert (Code (Datatypes.S d)) b (Code (Datatypes.S d)) -> inert (Code d) (String o (b ++ String e "")) (Code d).
Proof.
  intros Ho He Hb s. change (String o (b ++ String e "") ++ s) with (String o ((b ++ String e "") ++ s)). rewrite sapp_assoc. cbn [append].
  assert (O : is o "%" = false /\ row_sep o = false) by (unfold opens, is in Ho; apply orb_true_iff in Ho as [H|H]; apply Ascii.eqb_eq in H; subst o; auto).
  assert (E : is e "%" = false /\ row_sep e = false /\ opens e = false) by (unfold closes, is in He; apply orb_true_iff in He as [H|H]; apply Ascii.eqb_eq in H; subst e; auto).
  cbn [scan]. destruct O as [-> ->]. rewrite Ho. cbn [andb]. rewrite Hb. cbn [scan]. destruct E as (-> & -> & ->). rewrite He. cbn [andb Nat.pred].
  destruct (scan (Code d) s). rewrite sapp_assoc. reflexivity.
Qed.

Lemma stmt_end a s : inert (Code 0) a (Code 0) -> a <> "" -> statements (a ++ ";" ++ nl ++ s) = a :: statements s.
Proof.
  intros H Ha. unfold statements. rewrite H. cbn. destruct (scan (Code 0) s) as [w l]. rewrite sapp_nil. destruct a; [contradiction Ha; reflexivity|reflexivity].
Qed.
Lemma comment_end t s : has (is newline) t = false -> statements ("% " ++ t ++ nl ++ s) = statements s.
Proof.
  intros H. unfold statements. assert (K : forall t, has (is newline) t = false -> scan (Comm 0) (t ++ nl ++ s) = let '(w, l) := scan (Code 0) s in ("", keep w l)).
  { clear t H. induction t as [|c t IH]; intros H; [reflexivity|]. cbn [has] in H. apply orb_false_iff in H as [H1 H2]. cbn [append scan].
    replace (is c newline) with false by (symmetry; unfold is in *; rewrite Ascii.eqb_sym; exact H1). apply IH, H2. }
  cbn [append scan]. change (is "%" "%") with true. cbn iota. change (is " " newline) with false. cbn iota. rewrite K by exact H. destruct (scan (Code 0) s). reflexivity.
Qed.
Definition complete (s : string) : Prop := forall t, statements (s ++ t) = (statements s ++ statements t)%list.
Lemma complete_nil : complete "". Proof. intros t. reflexivity. Qed.
Lemma complete_app a b : complete a -> complete b -> complete (a ++ b).
Proof. intros Ha Hb t. rewrite sapp_assoc, !Ha, Hb, app_assoc. reflexivity. Qed.
Lemma complete_stmt a : inert (Code 0) a (Code 0) -> a <> "" -> complete (a ++ ";" ++ nl) /\ statements (a ++ ";" ++ nl) = [a].
Proof.
  intros H Ha. assert (E : statements (a ++ ";" ++ nl) = [a]) by (change (";" ++ nl) with (";" ++ nl ++ ""); rewrite stmt_end by auto; reflexivity).
  split; [|exact E]. intros t. rewrite E, !sapp_assoc. change ((";" ++ nl) ++ t) with (";" ++ nl ++ t). rewrite stmt_end by auto. reflexivity.
Qed.
Lemma complete_comment t : has (is newline) t = false -> complete ("% " ++ t ++ nl) /\ statements ("% " ++ t ++ nl) = [].
Proof.
  intros H. assert (E : statements ("% " ++ t ++ nl) = []) by (change nl with (nl ++ "") ; rewrite comment_end by auto; reflexivity).
  split; [|exact E]. intros s. rewrite E, !sapp_assoc. rewrite comment_end by auto. reflexivity.
Qed.

(** ** Assignments *)
Lemma cut_eq a b : has (is "=") a = false -> cut (a ++ String "=" b) = (a, Some b).
Proof.
  induction a as [|c a IH]; intros H; [reflexivity|]. cbn [has] in H. apply orb_false_iff in H as [H1 H2]. cbn [append cut].
  replace (is c "=") with false by (symmetry; unfold is in *; rewrite Ascii.eqb_sym; exact H1). rewrite IH by exact H2. reflexivity.
Qed.
Lemma no_blanks a b : has (is " ") a = false -> without_blanks (a ++ b) = a ++ without_blanks b.
Proof.
  induction a as [|c a IH]; intros H; [reflexivity|]. cbn [has] in H. apply orb_false_iff in H as [H1 H2]. cbn [append without_blanks].
  replace (is c " ") with false by (symmetry; unfold is in *; rewrite Ascii.eqb_sym; exact H1). rewrite IH by exact H2. reflexivity.
Qed.
Definition no_lead (s : string) : Prop := forall s', s <> String " " s'.
Lemma trim_id s : no_lead s -> left_trim s = s.
Proof. destruct s as [|c s]; intros H; auto. cbn [left_trim]. destruct (Ascii.eqb_spec c " ") as [->|Hn]; [contradiction (H s); reflexivity|]. unfold is. apply Ascii.eqb_neq in Hn. rewrite Hn. reflexivity. Qed.
Lemma is_eq_special c : is "=" c = true -> special c = true.
Proof. unfold is. intros H. apply Ascii.eqb_eq in H. subst c. reflexivity. Qed.
Lemma is_sp_special c : is " " c = true -> special c = true.
Proof. unfold is. intros H. apply Ascii.eqb_eq in H. subst c. reflexivity. Qed.
Lemma assignment_eq lhs rhs : word lhs -> no_lead rhs -> assignment (lhs ++ " = " ++ rhs) = (lhs, Some rhs).
Proof.
  intros H Hr. unfold assignment. replace (lhs ++ " = " ++ rhs) with ((lhs ++ " ") ++ String "=" (" " ++ rhs)) by (rewrite sapp_assoc; reflexivity).
  rewrite cut_eq.
  - rewrite no_blanks by (apply (word_no _ _ is_sp_special H)). cbn [option_map]. change (without_blanks " ") with "". change (left_trim (" " ++ rhs)) with (left_trim rhs). rewrite sapp_nil, trim_id by auto. reflexivity.
  - rewrite has_app, (word_no _ _ is_eq_special H). reflexivity.
Qed.

(** ** Lists *)
Fixpoint comma_list (l : list string) : string :=
  match l with [] => EmptyString | [s] => s | s :: l' => s ++ ", " ++ comma_list l' end.
Lemma comma_cons a b l : comma_list (a :: b :: l) = a ++ ", " ++ comma_list (b :: l).
Proof. reflexivity. Qed.
Lemma comma_has p l : p " "%char = false -> p ","%char = false -> Forall (fun s => has p s = false) l -> has p (comma_list l) = false.
Proof.
  intros H1 H2. induction l as [|a l IH]; intros H; [reflexivity|]. inversion H as [|? ? Ha Hl]; subst. destruct l as [|b l]; [exact Ha|].
  rewrite comma_cons, !has_app, Ha, (IH Hl). cbn [has orb]. rewrite H1, H2. reflexivity.
Qed.
Lemma comma_pieces l : Forall word l -> pieces elem_sep (comma_list l) = l.
Proof.
  induction l as [|a l IH]; intros H; [reflexivity|]. inversion H as [|? ? Ha Hl]; subst. destruct l as [|b l]; [apply word_pieces, Ha|].
  rewrite comma_cons. change (a ++ ", " ++ comma_list (b :: l)) with (a ++ String "," (spaces 1 ++ comma_list (b :: l))). rewrite pieces_sep by reflexivity.
  rewrite pieces_spaces, IH by exact Hl. rewrite word_pieces by exact Ha. reflexivity.
Qed.
Lemma comma_nonempty a l : word a -> comma_list (a :: l) <> "".
Proof. intros [H _]. destruct a; [contradiction H; reflexivity|]. destruct l; discriminate. Qed.
Lemma comma_rows a l : Forall word (a :: l) -> rows_of (comma_list (a :: l)) = [a :: l].
Proof.
  intros H. unfold rows_of. rewrite pieces_word.
  - pose proof (comma_nonempty a l (Forall_inv H)) as K. destruct (comma_list (a :: l)) eqn:E; [contradiction K; reflexivity|]. cbn [keep map]. rewrite <- E, comma_pieces by exact H. reflexivity.
  - apply comma_has; try reflexivity. eapply Forall_impl; [|exact H]. intros s Hs. apply word_no; auto. apply row_special.
Qed.
Lemma comma_literal a l : Forall word (a :: l) -> literal ("[" ++ comma_list (a :: l) ++ "]") [a :: l].
Proof.
  intros H. exists (comma_list (a :: l)). split; [reflexivity|]. split; [|apply comma_rows, H].
  apply comma_has; try reflexivity. eapply Forall_impl; [|exact H]. intros s Hs. apply word_no; auto. apply bracket_special.
Qed.

(** ** Expressions *)
Lemma scan_end s : scan (Code 0) (";" ++ s) = ("", statements s).
Proof. unfold statements. cbn. destruct (scan (Code 0) s). reflexivity. Qed.
Lemma statements_nl s : statements (nl ++ s) = statements s.
Proof. unfold statements. cbn. destruct (scan (Code 0) s). reflexivity. Qed.
Lemma inert_expr t : t <> "" -> no_lead t -> inert (Code 0) t (Code 0) -> expression t.
Proof. intros H1 H2 H3. split; [exact H1|]. split; [exact H2|]. intros s. rewrite H3, scan_end, sapp_nil. reflexivity. Qed.
Lemma word_no_lead w : word w -> no_lead w.
Proof. intros [_ H] s' ->. discriminate H. Qed.
Lemma expr_word w : word w -> expression w.
Proof. intros H. apply inert_expr; [apply H|apply word_no_lead, H|apply inert_word, H]. Qed.
Lemma expr_bracket o b e : opens o = true -> closes e = true -> inert (Code 1) b (Code 1) -> expression (String o (b ++ String e "")).
Proof.
  intros Ho He Hb. apply inert_expr; [discriminate| |apply inert_bracket; auto]. intros s' E. injection E as -> _. discriminate Ho.
Qed.
Lemma expr_inside b : has outside b = false -> expression ("[" ++ b ++ "]").
Proof. intros H. apply (expr_bracket "[" b "]"); [reflexivity..|]. apply inert_inside, H. Qed.
Lemma stmt_assign lhs rhs : word lhs -> expression rhs -> complete (lhs ++ " = " ++ rhs ++ ";" ++ nl) /\ run (lhs ++ " = " ++ rhs ++ ";" ++ nl) = [(lhs, Some rhs)].
Proof.
  intros Hl (R1 & R2 & R3). assert (E : forall s, statements (lhs ++ " = " ++ rhs ++ ";" ++ nl ++ s) = (lhs ++ " = " ++ rhs) :: statements s).
  { intros s. assert (I : inert (Code 0) (lhs ++ " = ") (Code 0)) by (eapply inert_app; [apply inert_word, Hl|apply inert_plain; reflexivity]).
    unfold statements at 1. replace (lhs ++ " = " ++ rhs ++ ";" ++ nl ++ s) with ((lhs ++ " = ") ++ rhs ++ ";" ++ nl ++ s) by (rewrite sapp_assoc; reflexivity).
    rewrite I, R3, statements_nl, sapp_assoc. destruct lhs; [destruct Hl as [Hl _]; contradiction Hl; reflexivity|reflexivity]. }
  assert (E0 : statements (lhs ++ " = " ++ rhs ++ ";" ++ nl) = [lhs ++ " = " ++ rhs]) by (apply (E "")).
  split; [|unfold run; rewrite E0; cbn [map]; rewrite assignment_eq by auto; reflexivity].
  intros t. rewrite E0, !sapp_assoc. exact (E t).
Qed.
Lemma run_app a b : complete a -> run (a ++ b) = (run a ++ run b)%list.
Proof. intros H. unfold run. rewrite H, map_app. reflexivity. Qed.

(** C76: reading matrix and inverse-kinematics files (tests/IKmatReader.cpp). *)
From Coq Require Import List Arith ZArith Lia Bool Ascii String Reals Lra.
From Verif Require Import Qps QpsSpec QpsText PropQps IkMat.
Import ListNotations.

(** * Specification *)
(** the extractions: a word that denotes a number is read up to the next blank; nothing can be read at the end *)
Definition reads_values (rdnum : string -> option (R * string)) (num : string -> option R) : Prop :=
  reads_numbers rdnum num /\ rdnum EmptyString = None.
(** a line of numbers, separated by blanks *)
Definition row_text (num : string -> option R) (l : string) (r : list R) : Prop := Forall2 (fun t v => num t = Some v) (tokens l) r.
(** a title: an equal sign, four characters, the name, anything *)
Definition title (name l : string) : Prop :=
  exists a b c d rest, l = String "=" (String a (String b (String c (String d (append name rest))))).
(** the lines of a matrix with [k] columns; a matrix without row takes one line, whatever it holds *)
Definition matrix_text (num : string -> option R) (ls : list string) (k : nat) (M : list (list R)) : Prop :=
  match M with
  | [] => List.length ls = 1%nat
  | _ => Forall2 (row_text num) ls M /\ Forall (fun r => List.length r = k) M
  end.
(** the lines of a vector: one number per line *)
Definition vector_text (num : string -> option R) (ls : list string) (v : list R) : Prop := matrix_text num ls 1 (map (fun x => [x]) v).

(** the lines of a problem file *)
Definition problem_text (rdint : string -> option Z) (num : string -> option R) (ls : list string) (p : ikpb) : Prop :=
  exists t1 l1 t2 l2 t3 l3 tQ lQ tc lc tA lA tb lb tC lC td ld txl lxl txu lxu,
  ls = t1 :: l1 :: t2 :: l2 :: t3 :: l3 :: tQ :: lQ ++ tc :: lc ++ tA :: lA ++ tb :: lb ++ tC :: lC ++ td :: ld ++ txl :: lxl ++ txu :: lxu /\
  title "dim_var" t1 /\ title "dim_eq" t2 /\ title "dim_ineq" t3 /\ title "Q" tQ /\ title "c" tc /\ title "A" tA /\ title "b" tb /\ title "C" tC /\
  title "d" td /\ title "x_min" txl /\ title "x_max" txu /\
  rdint (skip l1) = Some (Z.of_nat (List.length (ikc p))) /\ rdint (skip l2) = Some (Z.of_nat (List.length (ikb p))) /\ rdint (skip l3) = Some (Z.of_nat (List.length (ikd p))) /\
  matrix_text num lQ (m_cols (ikQ p)) (m_rows (ikQ p)) /\ vector_text num lc (ikc p) /\ matrix_text num lA (m_cols (ikA p)) (m_rows (ikA p)) /\ vector_text num lb (ikb p) /\
  matrix_text num lC (m_cols (ikC p)) (m_rows (ikC p)) /\ vector_text num ld (ikd p) /\ vector_text num lxl (ikxl p) /\ vector_text num lxu (ikxu p).
(** the sizes agree, and a matrix without row has no column *)
Definition sizes_agree (p : ikpb) : Prop :=
  (0 < List.length (ikc p))%nat /\ List.length (m_rows (ikQ p)) = List.length (ikc p) /\
  List.length (m_rows (ikA p)) = List.length (ikb p) /\ List.length (m_rows (ikC p)) = List.length (ikd p) /\
  List.length (ikxl p) = List.length (ikc p) /\ List.length (ikxu p) = List.length (ikc p) /\
  (forall M, In M [ikQ p; ikA p; ikC p] -> (m_rows M = [] -> m_cols M = 0%nat) /\ Forall (fun r => List.length r = m_cols M) (m_rows M)).

(** * Proofs *)
Section Proofs.
Variable rdnum : string -> option (R * string).
Variable rdint : string -> option Z.
Variable num : string -> option R.
Hypothesis RV : reads_values rdnum num.

Lemma length_append a b : String.length (append a b) = (String.length a + String.length b)%nat.
Proof. induction a as [|c a IH]; cbn; auto. Qed.
Lemma length_skip s : (String.length (skip s) <= String.length s)%nat.
Proof. induction s as [|c s IH]; cbn; auto. destruct (is_space c); cbn; lia. Qed.
Lemma read_nums_row vals : forall fuel s, (String.length s < fuel)%nat -> row_text num s vals -> read_nums rdnum fuel s = vals.
Proof.
  destruct RV as [RN R0]. induction vals as [|v vals IH]; intros [|fuel] s Hf H; try lia; cbn [read_nums]; unfold row_text in H; inversion H as [Et|t v' ts vs Hv Hts Et]; subst.
  - rewrite (proj1 (get_word_nil s) (eq_sym Et)), R0. reflexivity.
  - destruct (get_word_some s t ts (eq_sym Et)) as (r & _ & Tr & B & Sk & NE). rewrite Sk.
    rewrite (rn_bdry rdnum num RN t v r Hv B). f_equal. apply IH.
    + pose proof (length_skip s) as L. rewrite Sk, length_append in L. destruct t; [contradiction|]. cbn in L. lia.
    + unfold row_text. rewrite Tr. exact Hts.
Qed.
Lemma line_row l r : row_text num l r -> readVecLine rdnum l = r.
Proof. intros H. apply read_nums_row; [lia|exact H]. Qed.

Lemma substring_0 s : forall rest, substring 0 (String.length s) (append s rest) = s.
Proof. induction s as [|c s IH]; intros rest; cbn; [destruct rest; reflexivity|]. rewrite IH. reflexivity. Qed.
Lemma title_read name l ls : title name l -> readDataNameLine name (l :: ls) = Val (tt, ls).
Proof.
  intros (a & b & c & d & rest & ->). unfold readDataNameLine, isDataName. cbn [String.length Nat.ltb Nat.leb].
  cbn [substring]. rewrite substring_0, String.eqb_refl. reflexivity.
Qed.
Lemma substring_app n s : exists rest, s = append (substring 0 n s) rest.
Proof. revert n. induction s as [|c s IH]; intros [|n]; cbn; [exists EmptyString; auto|exists EmptyString; auto|eexists; reflexivity|]. destruct (IH n) as [rest E]. exists rest. congruence. Qed.
Lemma title_iff name l ls r : readDataNameLine name (l :: ls) = Val r <-> title name l /\ r = (tt, ls).
Proof.
  split; [|intros [H ->]; apply title_read; exact H].
  unfold readDataNameLine, isDataName. destruct l as [|c0 l]; [discriminate|].
  destruct (Ascii.ascii_dec c0 "=") as [->|NE].
  - destruct (Nat.ltb_spec (String.length (String "=" l)) 5) as [L|L]; [discriminate|]. cbn [obind].
    destruct (String.eqb_spec (substring 5 (String.length name) (String "=" l)) name) as [E|E]; [|discriminate].
    intros H. injection H as <-. split; [|reflexivity]. cbn [String.length] in L.
    destruct l as [|a [|b [|c [|d l]]]]; cbn [String.length] in L; try lia. cbn [substring] in E.
    destruct (substring_app (String.length name) l) as [rest El]. rewrite E in El. exists a, b, c, d, rest. rewrite <- El. reflexivity.
  - destruct c0 as [[] [] [] [] [] [] [] []]; try discriminate. exfalso. apply NE. reflexivity.
Qed.

Lemma rows_read M : forall ls k rest, Forall2 (row_text num) ls M -> Forall (fun r => List.length r = k) M ->
  readRows rdnum (List.length M) k (ls ++ rest) = Val (M, rest).
Proof.
  induction M as [|r M IH]; intros ls k rest H W; inversion H as [|l r' ls' M' Hl Hr]; subst; [reflexivity|].
  inversion W as [|? ? W1 W2]; subst. cbn [List.length readRows app]. rewrite (line_row _ _ Hl), Nat.eqb_refl. cbn [oguard].
  rewrite (IH ls' _ rest Hr W2). reflexivity.
Qed.
Lemma matrix_read ls k M f rest : matrix_text num ls k M -> (M = [] -> k = (if f : bool then 1 else 0)%nat) ->
  readMat rdnum (Z.of_nat (List.length M)) f (ls ++ rest) = Val (RowMat k M, rest).
Proof.
  intros H Hk. unfold readMat. rewrite (proj2 (Z.ltb_ge _ _)) by lia. destruct M as [|r M].
  - cbn in H. destruct ls as [|l [|l' ls]]; cbn in H; try lia. cbn [List.length Z.of_nat Z.eqb app]. rewrite Hk by reflexivity. reflexivity.
  - destruct H as [H W]. inversion H as [|l r' ls' M' Hl Hr]; subst. inversion W as [|? ? W1 W2]; subst.
    rewrite (proj2 (Z.eqb_neq _ _)) by (cbn [List.length]; lia). cbn [app]. rewrite Nat2Z.id. cbn [List.length]. rewrite Nat.sub_0_r, Nat.sub_succ, Nat.sub_0_r || rewrite Nat.sub_succ, Nat.sub_0_r.
    rewrite (line_row _ _ Hl), (rows_read M ls' _ rest Hr W2). cbn [obind]. reflexivity.
Qed.
Lemma section_read name t ls k M f rest : title name t -> matrix_text num ls k M -> (M = [] -> k = (if f : bool then 1 else 0)%nat) ->
  readSection rdnum name (Z.of_nat (List.length M)) f (t :: ls ++ rest) = Val (RowMat k M, rest).
Proof. intros T H Hk. unfold readSection. rewrite (title_read name t _ T). cbn [obind snd]. apply matrix_read; auto. Qed.
Lemma concat_single (v : list R) : List.concat (map (fun x => [x]) v) = v.
Proof. induction v; cbn; congruence. Qed.
Lemma vec_read name t ls v f rest : title name t -> vector_text num ls v -> (v = [] -> f = true) ->
  readVecSection rdnum name (Z.of_nat (List.length v)) f (t :: ls ++ rest) = Val (v, rest).
Proof.
  intros T H Hv. unfold readVecSection. replace (List.length v) with (List.length (map (fun x => [x]) v)) by apply map_length.
  rewrite (section_read name t ls 1 (map (fun x => [x]) v) f rest T H).
  - cbn [obind fst snd]. unfold to_vector. cbn [m_cols m_rows Nat.eqb oguard obind]. rewrite concat_single. reflexivity.
  - intros E. destruct v; [|discriminate]. rewrite (Hv eq_refl). reflexivity.
Qed.
Lemma int_read name t l k ls : title name t -> rdint (skip l) = Some k -> readIntSection rdint name (t :: l :: ls) = Val (k, ls).
Proof. intros T H. unfold readIntSection. rewrite (title_read name t _ T). cbn [obind snd readIntLine]. rewrite H. reflexivity. Qed.

Lemma problem_read ls p rest : problem_text rdint num ls p -> sizes_agree p -> readIKLines rdnum rdint (ls ++ rest) = Val (p, rest).
Proof.
  intros (t1 & l1 & t2 & l2 & t3 & l3 & tQ & lQ & tc & lc & tA & lA & tb & lb & tC & lC & td & ld & txl & lxl & txu & lxu & -> & T1 & T2 & T3 & T4 & T5 & T6 & T7 & T8 & T9 & T10 & T11 & I1 & I2 & I3 & MQ & Vc & MA & Vb & MC & Vd & Vl & Vu)
         (Hn & SQ & SA & SC & Sl & Su & W).
  destruct p as [[kQ Q] c [kA A] b [kC C] d xl xu]. cbn [ikQ ikc ikA ikb ikC ikd ikxl ikxu m_cols m_rows] in *.
  assert (WQ := proj1 (W _ (or_introl eq_refl))). assert (WA := proj1 (W _ (or_intror (or_introl eq_refl)))). assert (WC := proj1 (W _ (or_intror (or_intror (or_introl eq_refl))))). cbn [m_rows m_cols] in WQ, WA, WC.
  unfold readIKLines. cbn [app]. rewrite (int_read _ _ _ _ _ T1 I1). cbn [obind]. rewrite (int_read _ _ _ _ _ T2 I2). cbn [obind]. rewrite (int_read _ _ _ _ _ T3 I3). cbn [obind].
  rewrite <- app_assoc. rewrite <- SQ at 1. rewrite (section_read _ _ _ kQ Q false _ T4 MQ WQ). cbn [obind app].
  rewrite <- app_assoc. rewrite (vec_read _ _ _ c false _ T5 Vc) by (intros ->; cbn in Hn; lia). cbn [obind app].
  rewrite <- app_assoc. rewrite <- SA at 1. rewrite (section_read _ _ _ kA A false _ T6 MA WA). cbn [obind app].
  rewrite <- app_assoc. rewrite (vec_read _ _ _ b true _ T7 Vb) by auto. cbn [obind app].
  rewrite <- app_assoc. rewrite <- SC at 1. rewrite (section_read _ _ _ kC C false _ T8 MC WC). cbn [obind app].
  rewrite <- app_assoc. rewrite (vec_read _ _ _ d true _ T9 Vd) by auto. cbn [obind app].
  rewrite <- app_assoc. rewrite <- Sl at 1. rewrite (vec_read _ _ _ xl true _ T10 Vl) by auto. cbn [obind app].
  rewrite <- Su. rewrite (vec_read _ _ _ xu true _ T11 Vu) by auto. reflexivity.
Qed.
End Proofs.

(** ** Readers that take a fixed number of lines *)
(** [P] reads exactly the lines [used], whatever follows, and throws when some are missing *)
Definition exact_on {X} (P : list string -> outc (X * list string)) (used : list string) (v : X) : Prop :=
  (forall rest, P (used ++ rest) = Val (v, rest)) /\ (forall u1 u2, used = u1 ++ u2 -> u2 <> [] -> P u1 = Exc).
Definition steady {X} (P : list string -> outc (X * list string)) : Prop :=
  forall ls v r, P ls = Val (v, r) -> exists used, ls = used ++ r /\ exact_on P used v.

Lemma split_app {X} (a b u1 u2 : list X) : a ++ b = u1 ++ u2 -> u2 <> [] ->
  (exists a2, a = u1 ++ a2 /\ a2 <> []) \/ (exists b1, u1 = a ++ b1 /\ b = b1 ++ u2).
Proof.
  revert u1. induction a as [|x a IH]; intros u1 E N.
  - right. exists u1. auto.
  - destruct u1 as [|y u1]; [left; exists (x :: a); split; [reflexivity|discriminate]|].
    cbn in E. injection E as <- E. destruct (IH u1 E N) as [(a2 & -> & N2)|(b1 & -> & ->)]; [left; exists a2; auto|right; exists b1; auto].
Qed.
Lemma steady_bind {X Y} (P : list string -> outc (X * list string)) (Q : X -> list string -> outc (Y * list string)) :
  steady P -> (forall ls x r, P ls = Val (x, r) -> steady (Q x)) -> steady (fun ls => obind (P ls) (fun p => Q (fst p) (snd p))).
Proof.
  intros HP HQ ls v r E. destruct (P ls) as [[x r1]| |] eqn:E1; cbn [obind fst snd] in E; try discriminate.
  destruct (HP _ _ _ E1) as (u & -> & U1 & U2). destruct (HQ _ _ _ E1 _ _ _ E) as (w & -> & W1 & W2).
  exists (u ++ w). split; [rewrite app_assoc; reflexivity|]. split.
  - intros rest. rewrite <- app_assoc, U1. cbn [obind fst snd]. apply W1.
  - intros u1 u2 Es N. destruct (split_app u w u1 u2 Es N) as [(a2 & Ea & Na)|(b1 & -> & Eb)].
    + rewrite (U2 u1 a2 Ea Na). reflexivity.
    + rewrite U1. cbn [obind fst snd]. apply (W2 b1 u2 Eb N).
Qed.
Lemma steady_never {X} (P : list string -> outc (X * list string)) : (forall ls v, P ls <> Val v) -> steady P.
Proof. intros H ls v r E. exfalso. apply (H ls _ E). Qed.
Lemma steady_ext {X} (P Q : list string -> outc (X * list string)) : (forall ls, P ls = Q ls) -> steady P -> steady Q.
Proof. intros E H ls v r Eq. rewrite <- E in Eq. destruct (H _ _ _ Eq) as (u & -> & A & B). exists u. split; auto. split; [intros; rewrite <- E; auto|intros; rewrite <- E; eapply B; eauto]. Qed.
Lemma steady_map {X Y} (P : list string -> outc (X * list string)) (f : X -> outc Y) : steady P ->
  steady (fun ls => obind (P ls) (fun p => obind (f (fst p)) (fun y => Val (y, snd p)))).
Proof.
  intros HP. apply (steady_bind P (fun x ls => obind (f x) (fun y => Val (y, ls)))); auto. intros _ x _ _ ls v r E.
  destruct (f x) as [y| |]; cbn in E; try discriminate. injection E as -> ->. exists []. split; [reflexivity|]. split; [reflexivity|].
  intros u1 u2 Es N. destruct u1; cbn in Es; [congruence|discriminate].
Qed.
Lemma steady_title name : steady (readDataNameLine name).
Proof.
  intros ls v r E. destruct ls as [|l ls]; [discriminate|]. apply title_iff in E as [T E]. injection E as -> ->.
  exists [l]. split; [reflexivity|]. split; [intros rest; apply title_read; exact T|].
  intros [|x u1] u2 Es N; [reflexivity|]. injection Es as _ Es. destruct u1, u2; try discriminate. contradiction.
Qed.
Lemma steady_int rdint : steady (readIntLine rdint).
Proof.
  intros ls v r E. destruct ls as [|l ls]; [discriminate|]. cbn in E. destruct (rdint (skip l)) as [k|] eqn:Ek; [|discriminate]. injection E as -> ->.
  exists [l]. split; [reflexivity|]. split; [intros rest; cbn; rewrite Ek; reflexivity|].
  intros [|x u1] u2 Es N; [reflexivity|]. injection Es as _ Es. destruct u1, u2; try discriminate. contradiction.
Qed.
Lemma steady_rows rdnum cnt k : steady (readRows rdnum cnt k).
Proof.
  induction cnt as [|c IH]; intros ls v r E.
  - injection E as <- <-. exists []. split; [reflexivity|]. split; [reflexivity|]. intros u1 u2 Es N. destruct u1; cbn in Es; [congruence|discriminate].
  - destruct ls as [|l ls]; [discriminate|]. cbn [readRows] in E. destruct (List.length (readVecLine rdnum l) =? k)%nat eqn:Ek; [|discriminate]. cbn [oguard] in E.
    destruct (readRows rdnum c k ls) as [[rs r1]| |] eqn:E1; cbn [obind] in E; try discriminate. injection E as <- <-.
    destruct (IH _ _ _ E1) as (u & -> & U1 & U2). exists (l :: u). split; [reflexivity|]. split.
    + intros rest. cbn [app readRows]. rewrite Ek. cbn [oguard]. rewrite U1. reflexivity.
    + intros [|x u1] u2 Es N; [reflexivity|]. injection Es as <- Es. cbn [readRows]. rewrite Ek. cbn [oguard]. rewrite (U2 u1 u2 Es N). reflexivity.
Qed.
Lemma steady_mat rdnum n f : (0 <= n)%Z -> steady (readMat rdnum n f).
Proof.
  intros Hn ls v r E. unfold readMat in *. rewrite (proj2 (Z.ltb_ge _ _)) in E by lia. destruct (Z.eqb_spec n 0) as [->|N0].
  - destruct ls as [|l ls]; [discriminate|]. injection E as <- <-. exists [l]. split; [reflexivity|]. split; [reflexivity|].
    intros [|x u1] u2 Es N; [reflexivity|]. injection Es as _ Es. destruct u1, u2; try discriminate. contradiction.
  - destruct ls as [|l ls]; [discriminate|]. cbv zeta in E.
    destruct (readRows rdnum (Z.to_nat n - 1) (List.length (readVecLine rdnum l)) ls) as [[rs r1]| |] eqn:E1; cbn [obind] in E; try discriminate. injection E as <- <-.
    destruct (steady_rows _ _ _ _ _ _ E1) as (u & -> & U1 & U2). exists (l :: u). split; [reflexivity|]. split.
    + intros rest. cbn [app]. rewrite (proj2 (Z.ltb_ge n 0)) by lia. rewrite U1. reflexivity.
    + intros u1 u2 Es N. rewrite (proj2 (Z.ltb_ge n 0)) by lia. destruct u1 as [|x u1]; [reflexivity|].
      injection Es as <- Es. cbv zeta. rewrite (U2 u1 u2 Es N). reflexivity.
Qed.
Lemma neg_rest rdnum n f ls M r : (n < 0)%Z -> readMat rdnum n f ls = Val (M, r) -> r = [].
Proof.
  intros Hn E. unfold readMat in E. rewrite (proj2 (Z.ltb_lt _ _)) in E by lia. unfold readRest in E. cbv zeta in E.
  match type of E with oguard ?b _ = _ => destruct b; [|discriminate] end. injection E as _ <-. reflexivity.
Qed.

(** The part of a problem file that follows the three sizes *)
Definition readBody rdnum (n me mi : Z) (ls : list string) : outc (ikpb * list string) :=
  try p <- readSection rdnum "Q" n false ls; let '(Q, ls) := p in
  try p <- readVecSection rdnum "c" n false ls; let '(c, ls) := p in
  try p <- readSection rdnum "A" me false ls; let '(A, ls) := p in
  try p <- readVecSection rdnum "b" me true ls; let '(b, ls) := p in
  try p <- readSection rdnum "C" mi false ls; let '(C, ls) := p in
  try p <- readVecSection rdnum "d" mi true ls; let '(d, ls) := p in
  try p <- readVecSection rdnum "x_min" n true ls; let '(xl, ls) := p in
  try p <- readVecSection rdnum "x_max" n true ls; let '(xu, ls) := p in
  Val (IK Q c A b C d xl xu, ls).

Ltac step E := match type of E with
  | obind ?a _ = Val _ => let x := fresh "x" in let r := fresh "r" in let H := fresh "H" in
      destruct a as [[x r]| |] eqn:H; cbn [obind] in E; try discriminate E
  end.
Lemma sec_title rdnum name n f ls M r : readSection rdnum name n f ls = Val (M, r) -> exists l ls', ls = l :: ls' /\ readMat rdnum n f ls' = Val (M, r).
Proof.
  unfold readSection. intros E. destruct ls as [|l ls]; [discriminate|]. destruct (readDataNameLine name (l :: ls)) as [p| |] eqn:H; cbn [obind] in E; try discriminate.
  apply title_iff in H as [_ ->]. exists l, ls. auto.
Qed.
Lemma vec_sec rdnum name n f ls v r : readVecSection rdnum name n f ls = Val (v, r) ->
  exists M, readSection rdnum name n f ls = Val (M, r) /\ m_cols M = 1%nat /\ v = List.concat (m_rows M).
Proof.
  unfold readVecSection. intros E. destruct (readSection rdnum name n f ls) as [[M r1]| |]; cbn [obind fst snd] in E; try discriminate.
  unfold to_vector in E. destruct (Nat.eqb_spec (m_cols M) 1); [|discriminate]. cbn [oguard obind] in E. injection E as <- <-. exists M. auto.
Qed.
Lemma sec_neg rdnum name n f ls M r : (n < 0)%Z -> readSection rdnum name n f ls = Val (M, r) -> r = [].
Proof. intros Hn E. apply sec_title in E as (l & ls' & _ & E). apply (neg_rest _ _ _ _ _ _ Hn E). Qed.
Lemma sec_nil rdnum name n f M r : readSection rdnum name n f [] <> Val (M, r). Proof. discriminate. Qed.
Lemma vec_nil rdnum name n f v r : readVecSection rdnum name n f [] <> Val (v, r). Proof. discriminate. Qed.

Lemma body_nonneg rdnum n me mi ls p r : readBody rdnum n me mi ls = Val (p, r) -> (0 <= n /\ 0 <= me /\ 0 <= mi)%Z.
Proof.
  unfold readBody. intros E. repeat step E.
  split; [|split].
  - destruct (Z.lt_ge_cases n 0) as [L|]; [|assumption]. exfalso. apply (sec_neg _ _ _ _ _ _ _ L) in H. subst. eapply vec_nil; eauto.
  - destruct (Z.lt_ge_cases me 0) as [L|]; [|assumption]. exfalso. apply (sec_neg _ _ _ _ _ _ _ L) in H1. subst. eapply vec_nil; eauto.
  - destruct (Z.lt_ge_cases mi 0) as [L|]; [|assumption]. exfalso. apply (sec_neg _ _ _ _ _ _ _ L) in H3. subst. eapply vec_nil; eauto.
Qed.

Lemma steady_section rdnum name n f : (0 <= n)%Z -> steady (readSection rdnum name n f).
Proof.
  intros Hn. apply (steady_bind (readDataNameLine name) (fun _ => readMat rdnum n f)); [apply steady_title|]. intros. apply steady_mat. auto.
Qed.
Lemma steady_vec rdnum name n f : (0 <= n)%Z -> steady (readVecSection rdnum name n f).
Proof. intros Hn. apply (steady_map (readSection rdnum name n f) to_vector). apply steady_section. auto. Qed.
Lemma steady_intsec rdint name : steady (readIntSection rdint name).
Proof. apply (steady_bind (readDataNameLine name) (fun _ => readIntLine rdint)); [apply steady_title|]. intros. apply steady_int. Qed.
Lemma steady_ret {X} (x : X) : steady (fun ls => Val (x, ls)).
Proof. intros ls v r E. injection E as <- <-. exists []. split; [reflexivity|]. split; [reflexivity|]. intros u1 u2 Es N. destruct u1; cbn in Es; [congruence|discriminate]. Qed.
Lemma steady_let {X Y} (P : list string -> outc (X * list string)) (Q : X -> list string -> outc (Y * list string)) :
  steady P -> (forall x, steady (Q x)) -> steady (fun ls => obind (P ls) (fun p => let '(x, ls) := p in Q x ls)).
Proof.
  intros HP HQ. apply (steady_ext (fun ls => obind (P ls) (fun p => Q (fst p) (snd p)))); [|apply (steady_bind P Q HP); intros; apply HQ]. intros ls. destruct (P ls) as [[x r]| |]; reflexivity.
Qed.
Lemma steady_body rdnum n me mi : steady (readBody rdnum n me mi).
Proof.
  destruct (Z.lt_ge_cases n 0) as [L|L1]; [apply steady_never; intros ls [p r] E; apply body_nonneg in E; lia|].
  destruct (Z.lt_ge_cases me 0) as [L|L2]; [apply steady_never; intros ls [p r] E; apply body_nonneg in E; lia|].
  destruct (Z.lt_ge_cases mi 0) as [L|L3]; [apply steady_never; intros ls [p r] E; apply body_nonneg in E; lia|].
  unfold readBody. 
  repeat (apply steady_let; [first [apply steady_section|apply steady_vec]; assumption|intros]). apply steady_ret.
Qed.
Lemma steady_ik rdnum rdint : steady (readIKLines rdnum rdint).
Proof.
  apply (steady_ext (fun ls => try p <- readIntSection rdint "dim_var" ls; let '(n, ls) := p in
    try p <- readIntSection rdint "dim_eq" ls; let '(me, ls) := p in
    try p <- readIntSection rdint "dim_ineq" ls; let '(mi, ls) := p in readBody rdnum n me mi ls)); [reflexivity|].
  repeat (apply steady_let; [apply steady_intsec|intros]). apply steady_body.
Qed.

(** ** The sizes of what is read *)
Lemma rows_sizes rdnum cnt k : forall ls rs r, readRows rdnum cnt k ls = Val (rs, r) -> List.length rs = cnt /\ Forall (fun x => List.length x = k) rs.
Proof.
  induction cnt as [|c IH]; intros ls rs r E; cbn [readRows] in E; [injection E as <- <-; auto|].
  destruct ls as [|l ls]; [discriminate|]. destruct (Nat.eqb_spec (List.length (readVecLine rdnum l)) k); [|discriminate]. cbn [oguard] in E.
  destruct (readRows rdnum c k ls) as [[rs' r']| |] eqn:E1; cbn [obind] in E; try discriminate. injection E as <- <-.
  destruct (IH _ _ _ E1). cbn [List.length]. split; [congruence|constructor; auto].
Qed.
Lemma mat_sizes rdnum n f ls M r : (0 <= n)%Z -> readMat rdnum n f ls = Val (M, r) ->
  List.length (m_rows M) = Z.to_nat n /\ Forall (fun x => List.length x = m_cols M) (m_rows M) /\ (m_rows M = [] -> m_cols M = if f then 1%nat else 0%nat).
Proof.
  intros Hn E. unfold readMat in E. rewrite (proj2 (Z.ltb_ge _ _)) in E by lia. destruct (Z.eqb_spec n 0) as [->|N0].
  - destruct ls as [|l ls]; [discriminate|]. injection E as <- <-. cbn. auto.
  - destruct ls as [|l ls]; [discriminate|]. cbv zeta in E.
    destruct (readRows rdnum (Z.to_nat n - 1) (List.length (readVecLine rdnum l)) ls) as [[rs r1]| |] eqn:E1; cbn [obind] in E; try discriminate. injection E as <- <-.
    apply rows_sizes in E1 as [E1 E2]. cbn [m_rows m_cols List.length]. split; [lia|]. split; [constructor; auto|discriminate].
Qed.
Lemma concat_len (rs : list (list R)) : Forall (fun x => List.length x = 1%nat) rs -> List.length (List.concat rs) = List.length rs.
Proof. induction 1 as [|x l H _ IH]; cbn; auto. rewrite app_length, IH, H. lia. Qed.
Lemma vec_sizes rdnum name n f ls v r : (0 <= n)%Z -> readVecSection rdnum name n f ls = Val (v, r) -> List.length v = Z.to_nat n /\ (f = false -> (0 < n)%Z).
Proof.
  intros Hn E. apply vec_sec in E as (M & E & Hc & ->). apply sec_title in E as (l & ls' & _ & E). apply mat_sizes in E as (E1 & E2 & E3); auto.
  rewrite Hc in E2. split; [rewrite concat_len by auto; exact E1|]. intros ->. destruct (m_rows M) eqn:Em; [exfalso; specialize (E3 eq_refl); lia|]. cbn in E1. lia.
Qed.

(** * C76 *)
(** A file written to the format gives its problem; anything after it is ignored. *)
Theorem C76_reads : forall rdnum rdint num ls p rest, reads_values rdnum num -> problem_text rdint num ls p -> sizes_agree p -> no_newline (ls ++ rest) ->
  readIKPbFile rdnum rdint (unlines (ls ++ rest)) = Val p.
Proof.
  intros rdnum rdint num ls p rest RV PT SA NL. unfold readIKPbFile. rewrite (getlines_unlines _ NL), (problem_read rdnum rdint num RV ls p rest PT SA). reflexivity.
Qed.
(** ... and is refused when its end is missing. *)
Theorem C76_truncated_refused : forall rdnum rdint num ls p l1 l2, reads_values rdnum num -> problem_text rdint num ls p -> sizes_agree p -> no_newline ls ->
  ls = l1 ++ l2 -> l2 <> [] -> readIKPbFile rdnum rdint (unlines l1) = Exc.
Proof.
  intros rdnum rdint num ls p l1 l2 RV PT SA NL E N. unfold readIKPbFile.
  assert (NL1 : no_newline l1) by (intros l Hl; apply NL; rewrite E; apply in_or_app; auto). rewrite (getlines_unlines _ NL1).
  pose proof (problem_read rdnum rdint num RV ls p [] PT SA) as R0. rewrite app_nil_r in R0.
  destruct (steady_ik rdnum rdint _ _ _ R0) as (used & Eu & _ & HE). rewrite app_nil_r in Eu. subst used. rewrite (HE l1 l2 E N). reflexivity.
Qed.
(** Whatever the text, a value has the announced sizes, which were positive or null, and complete rows. *)
Theorem C76_sizes : forall rdnum rdint txt p, readIKPbFile rdnum rdint txt = Val p -> sizes_agree p.
Proof.
  intros rdnum rdint txt p E. unfold readIKPbFile in E. destruct (readIKLines rdnum rdint (getlines txt)) as [[q r]| |] eqn:El; cbn [obind fst] in E; try discriminate.
  injection E as ->. unfold readIKLines in El. step El. step El. step El. change (readBody rdnum x x0 x1 r2 = Val (p, r)) in El.
  pose proof (body_nonneg _ _ _ _ _ _ _ El) as (N1 & N2 & N3). unfold readBody in El. repeat step El. injection El as <- <-.
  apply vec_sizes in H3 as (S3 & P3); auto. apply vec_sizes in H5 as (S5 & _); auto. apply vec_sizes in H7 as (S7 & _); auto. apply vec_sizes in H8 as (S8 & _); auto. apply vec_sizes in H9 as (S9 & _); auto.
  apply sec_title in H2 as (? & ? & _ & H2). apply sec_title in H4 as (? & ? & _ & H4). apply sec_title in H6 as (? & ? & _ & H6).
  apply mat_sizes in H2 as (A1 & A2 & A3); auto. apply mat_sizes in H4 as (B1 & B2 & B3); auto. apply mat_sizes in H6 as (C1 & C2 & C3); auto.
  specialize (P3 eq_refl). unfold sizes_agree. cbn [ikQ ikc ikA ikb ikC ikd ikxl ikxu].
  split; [lia|]. split; [congruence|]. split; [congruence|]. split; [congruence|]. split; [congruence|]. split; [congruence|].
  intros M [<-|[<-|[<-|[]]]]; auto.
Qed.
(** Reading a value again, or after other lines were appended, gives the same value: nothing is read beyond the last section. *)
Theorem C76_prefix : forall rdnum rdint ls p rest, readIKPbFile rdnum rdint (unlines ls) = Val p -> no_newline (ls ++ rest) ->
  readIKPbFile rdnum rdint (unlines (ls ++ rest)) = Val p.
Proof.
  intros rdnum rdint ls p rest E NL. assert (NL1 : no_newline ls) by (intros l Hl; apply NL; apply in_or_app; auto). unfold readIKPbFile in *.
  rewrite (getlines_unlines _ NL1) in E. rewrite (getlines_unlines _ NL). destruct (readIKLines rdnum rdint ls) as [[q r]| |] eqn:El; cbn [obind fst] in E; try discriminate. injection E as ->.
  destruct (steady_ik rdnum rdint _ _ _ El) as (used & -> & HU & _). rewrite <- app_assoc, HU. reflexivity.
Qed.
(** A section title is accepted exactly when the name follows the fifth character; what comes after the name is not looked at. *)
Theorem C76_title_iff : forall name l ls r, readDataNameLine name (l :: ls) = Val r <-> title name l /\ r = (tt, ls).
Proof. exact title_iff. Qed.
Theorem C76_title_prefix : exists ls, readDataNameLine "d" ls = Val (tt, []) /\ readDataNameLine "dim_eq" ls = Val (tt, []).
Proof. exists ["==== dim_eq"%string]. split; reflexivity. Qed.

(** A plain matrix file: one row per line, as many columns as numbers on the first line; undefined exactly when the
    lines do not hold the same number of numbers; never an exception. *)
Theorem C76_matrix_file : forall rdnum num ls rows k, reads_values rdnum num -> no_newline ls -> Forall2 (row_text num) ls rows ->
  Forall (fun r => List.length r = k) rows -> (rows = [] -> k = 0%nat) -> readMatFile rdnum (unlines ls) = Val (RowMat k rows).
Proof.
  intros rdnum num ls rows k RV NL H W Hk. unfold readMatFile. rewrite (getlines_unlines _ NL). unfold readMat. cbn [Z.ltb Z.compare]. unfold readRest. cbv zeta.
  assert (E : map (readVecLine rdnum) ls = rows).
  { clear - H RV. induction H as [|l r ls rows Hl _ IH]; cbn [map]; [reflexivity|]. rewrite (line_row rdnum num RV _ _ Hl), IH. reflexivity. }
  rewrite E. assert (K : match rows with [] => 0%nat | r :: _ => List.length r end = k) by (destruct rows; [symmetry; auto|inversion W; auto]). rewrite K.
  unfold all_width. rewrite (proj2 (forallb_forall _ _)); [reflexivity|]. intros r Hr. apply Nat.eqb_eq. rewrite Forall_forall in W. auto.
Qed.
Theorem C76_matrix_file_undefined : forall rdnum txt, 
  (readMatFile rdnum txt = Und <-> exists l1 l2, In l1 (getlines txt) /\ In l2 (getlines txt) /\ List.length (readVecLine rdnum l1) <> List.length (readVecLine rdnum l2)) /\
  readMatFile rdnum txt <> Exc.
Proof.
  intros rdnum txt. unfold readMatFile, readMat. cbn [Z.ltb Z.compare]. unfold readRest. cbv zeta. set (ls := getlines txt). clearbody ls.
  set (k := match map (readVecLine rdnum) ls with [] => 0%nat | r :: _ => List.length r end). 
  destruct (all_width k (map (readVecLine rdnum) ls)) eqn:W; cbn [oguard obind].
  - split; [|discriminate]. split; [discriminate|]. intros (l1 & l2 & I1 & I2 & N). exfalso. apply N.
    unfold all_width in W. rewrite forallb_forall in W. pose proof (W _ (in_map _ _ _ I1)) as K1. pose proof (W _ (in_map _ _ _ I2)) as K2. apply Nat.eqb_eq in K1, K2. congruence.
  - split; [|discriminate]. split; [intros _|reflexivity]. destruct ls as [|l ls]; [discriminate|].
    assert (X : exists r, In r (map (readVecLine rdnum) (l :: ls)) /\ List.length r <> k).
    { clearbody k. revert W. generalize (map (readVecLine rdnum) (l :: ls)). induction l0 as [|r l0 IH]; cbn; [discriminate|]. destruct (Nat.eqb_spec (List.length r) k); cbn; [|exists r; auto].
      intros W. destruct (IH W) as (r' & I & N). exists r'. auto. }
    destruct X as (r & I & N). apply in_map_iff in I as (l' & <- & I). exists l', l. split; [exact I|]. split; [left; reflexivity|exact N].
Qed.

(** * The hypotheses are met: two variables, one equality, no inequality *)
Definition ex_int (s : string) : option Z := assoc (fst (word s)) [("0", 0%Z); ("1", 1%Z); ("2", 2%Z); ("-3", (-3)%Z)]%string.
Definition ex_ik : ikpb := IK (RowMat 2 [[2; 1]; [1; 2]]%R) [1; -3]%R (RowMat 2 [[1; 1]]%R) [2]%R (RowMat 0 []) [] [-3; -3]%R [2; 2]%R.
Definition ex_lines : list string :=
  ["==== dim_var"; "2"; "==== dim_eq"; " 1"; "==== dim_ineq"; "0"; "==== Q"; "2  1"; " 1 2 "; "==== c"; "1"; "-3"; "==== A"; "1 1"; "==== b"; "2";
   "==== C"; ""; "==== d"; ""; "==== x_min"; "-3"; "-3"; "==== x_max"; "2"; "2"]%string.
Lemma ex_title name l r : l = append "==== " (append name r) -> title name l.
Proof. intros ->. exists "="%char, "="%char, "="%char, " "%char, r. reflexivity. Qed.
Example C76_nonvacuous : reads_values ex_rd ex_num /\ problem_text ex_int ex_num ex_lines ex_ik /\ sizes_agree ex_ik /\ no_newline ex_lines /\
  readIKPbFile ex_rd ex_int (unlines ex_lines) = Val ex_ik.
Proof.
  assert (RV : reads_values ex_rd ex_num) by (split; [apply ex_reads|reflexivity]).
  assert (PT : problem_text ex_int ex_num ex_lines ex_ik).
  { exists "==== dim_var"%string, "2"%string, "==== dim_eq"%string, " 1"%string, "==== dim_ineq"%string, "0"%string,
      "==== Q"%string, ["2  1"; " 1 2 "]%string, "==== c"%string, ["1"; "-3"]%string, "==== A"%string, ["1 1"]%string, "==== b"%string, ["2"]%string,
      "==== C"%string, [""]%string, "==== d"%string, [""]%string, "==== x_min"%string, ["-3"; "-3"]%string, "==== x_max"%string, ["2"; "2"]%string.
    split; [reflexivity|]. repeat (split; [apply (ex_title _ _ ""%string); reflexivity|]).
    split; [reflexivity|]. split; [reflexivity|]. split; [reflexivity|].
    assert (F : forall (l : string) ts (r : list R), tokens l = ts -> Forall2 (fun t v => ex_num t = Some v) ts r -> row_text ex_num l r) by (intros l ts r <-; auto).
    cbn [ex_ik ikQ ikc ikA ikb ikC ikd ikxl ikxu m_cols m_rows]. unfold vector_text. cbn [map].
    repeat split; try reflexivity; repeat (constructor; try reflexivity); try (eapply F; [reflexivity|]; repeat (constructor; try reflexivity)). }
  assert (SA : sizes_agree ex_ik).
  { unfold sizes_agree. cbn [ex_ik ikQ ikc ikA ikb ikC ikd ikxl ikxu m_cols m_rows List.length]. split; [lia|]. repeat (split; [reflexivity|]). intros M [<-|[<-|[<-|[]]]]; cbn; split; auto; discriminate. }
  assert (NL : no_newline ex_lines) by (intros l Hl; cbn in Hl; repeat (destruct Hl as [<-|Hl]; [reflexivity|]); contradiction).
  split; [exact RV|]. split; [exact PT|]. split; [exact SA|]. split; [exact NL|].
  pose proof (C76_reads ex_rd ex_int ex_num ex_lines ex_ik [] RV PT SA) as H. rewrite app_nil_r in H. apply H. exact NL.
Qed.

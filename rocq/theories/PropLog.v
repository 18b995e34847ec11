(** C60 (matrices written for Matlab) and C61 (the log is a Matlab script that records exactly what was logged). *)
From Coq Require Import List Arith ZArith NArith Lia Bool Ascii String.
From Verif Require Import Base ActiveSet ActiveSetProofs Util LogText MatlabSpec LogProofs PropActiveSet.
Import ListNotations.
Local Open Scope string_scope.

(** ** C60 *)
(** Every matrix with at least one element is read back, element by element, with its shape *)
Theorem C60_toMatlab : forall V (show : V -> string) r c m, (0 < r)%nat -> (0 < c)%nat ->
  (forall i j, (i < r)%nat -> (j < c)%nat -> word (show (m i j))) ->
  literal (toMatlab show r c m) (table show r c m).
Proof.
  intros V show r c m Hr Hc H. destruct (toMatlab_body show r c m Hr Hc H) as (b & -> & Hb & Hrow). exists b. split; [reflexivity|]. split; [|exact Hrow].
  apply (has_weak outside); auto. apply bracket_outside.
Qed.
(** The shape of a matrix without element is lost: 3 x 0, 0 x 3 and 0 x 1 are all written [] *)
Theorem C60_empty : forall V (show : V -> string) r c m, (r * c = 0)%nat -> toMatlab show r c m = "[]" /\ literal (toMatlab show r c m) [].
Proof.
  intros V show r c m H. assert (E : toMatlab show r c m = "[]").
  { unfold toMatlab, print_matrix. destruct (Nat.eqb_spec c 1) as [->|]; [rewrite (Nat.mul_comm 1 r)|]; rewrite H; reflexivity. }
  split; [exact E|]. rewrite E. exists "". repeat split.
Qed.
Lemma map_seq_inv {A} (f g : nat -> A) n : map f (seq 0 n) = map g (seq 0 n) -> forall i, (i < n)%nat -> f i = g i.
Proof.
  intros H i Hi. apply (f_equal (fun l => nth_error l i)) in H. rewrite !nth_error_map in H.
  rewrite (nth_error_nth' _ 0%nat) in H by (rewrite seq_length; exact Hi). rewrite seq_nth in H by exact Hi. cbn in H. congruence.
Qed.
(** Two matrices with the same text have the same number of rows and columns and the same printed elements *)
Theorem C60_injective : forall V (show : V -> string) r c m r' c' m', (0 < r)%nat -> (0 < c)%nat -> (0 < r')%nat -> (0 < c')%nat ->
  (forall i j, (i < r)%nat -> (j < c)%nat -> word (show (m i j))) -> (forall i j, (i < r')%nat -> (j < c')%nat -> word (show (m' i j))) ->
  toMatlab show r c m = toMatlab show r' c' m' -> r = r' /\ c = c' /\ forall i j, (i < r)%nat -> (j < c)%nat -> show (m i j) = show (m' i j).
Proof.
  intros V show r c m r' c' m' Hr Hc Hr' Hc' H H' E. destruct (toMatlab_body show r c m Hr Hc H) as (b & E1 & _ & R1), (toMatlab_body show r' c' m' Hr' Hc' H') as (b' & E2 & _ & R2).
  assert (Eb : b = b').
  { rewrite E1, E2 in E. cbn [append] in E. injection E as E. clear -E. revert b' E. induction b as [|x b IH]; intros [|y b'] E; cbn in E; [reflexivity| | |].
    - injection E as _ E. destruct b'; discriminate E.
    - injection E as _ E. destruct b; discriminate E.
    - injection E as -> E. now rewrite (IH _ E). }
  subst b'. rewrite R1 in R2. unfold table in R2.
  assert (Er : r = r') by (apply (f_equal (@List.length _)) in R2; rewrite !map_length, !seq_length in R2; exact R2). subst r'.
  assert (K : forall i, (i < r)%nat -> map (fun j => show (m i j)) (seq 0 c) = map (fun j => show (m' i j)) (seq 0 c')).
  { apply (map_seq_inv _ _ _ R2). }
  split; [reflexivity|]. assert (Ec : c = c') by (pose proof (f_equal (@List.length _) (K 0%nat Hr)) as L; rewrite !map_length, !seq_length in L; exact L). subst c'.
  split; [reflexivity|]. intros i j Hi Hj. exact (map_seq_inv _ _ _ (K i Hi) j Hj).
Qed.
(** The text of an active set is the list of the active constraints (numbered from 0), in order *)
Theorem C60_active_set : forall nc nb ops A, as_run (as_new nc nb) ops = Ok A ->
  exists t, show_activeset A = Ok t /\ expression t /\ literal t (match a_active A with [] => [] | l => [map (fun i => decimal (Z.of_nat i)) l] end).
Proof.
  intros nc nb ops A HA. assert (HL : nbActiveCstr A = Z.of_nat (List.length (a_active A))) by (apply (C02_lemma nc nb ops A HA)).
  set (sh := fun i => show_int (Z.of_nat i)).
  assert (HT : show_activeset A = Ok ("[" ++ comma_list (map sh (a_active A)) ++ "]")).
  { unfold show_activeset. rewrite HL. unfold as_get. destruct (a_active A) as [|a0 l0] eqn:EA; [reflexivity|]. rewrite <- EA in *.
    assert (HS : forall k i, (i + k < List.length (a_active A))%nat -> exists t, show_active_loop A i k = Ok t /\
        forall e, nth_error (a_active A) (i + k) = Some e -> t ++ sh e = comma_list (map sh (firstn (Datatypes.S k) (skipn i (a_active A))))).
    { induction k as [|k IH]; intros i Hi.
      - exists "". split; [reflexivity|]. intros e He. rewrite Nat.add_0_r in He. pose proof (nth_error_split _ _ He) as (l1 & l2 & E & Hl). rewrite E, <- Hl, skipn_app, skipn_all, Nat.sub_diag. reflexivity.
      - destruct (IH (Datatypes.S i) ltac:(lia)) as (t & Et & Ht). cbn [show_active_loop]. unfold as_get. destruct (nth_error (a_active A) i) as [a|] eqn:Ea; [|apply nth_error_None in Ea; lia].
        cbn [bind]. rewrite Et. cbn [bind]. eexists. split; [reflexivity|]. intros e He. rewrite !sapp_assoc. replace (i + Datatypes.S k)%nat with (Datatypes.S i + k)%nat in He by lia. rewrite (Ht e He).
        pose proof (nth_error_split _ _ Ea) as (l1 & l2 & E & Hl). assert (Sk : skipn i (a_active A) = a :: l2) by (rewrite E, <- Hl, skipn_app, skipn_all, Nat.sub_diag; reflexivity).
        assert (Sk' : skipn (Datatypes.S i) (a_active A) = l2) by (rewrite E; replace (Datatypes.S i) with (List.length (l1 ++ [a])) by (rewrite app_length; cbn; lia); replace (l1 ++ a :: l2)%list with ((l1 ++ [a]) ++ l2)%list by (rewrite <- app_assoc; reflexivity); rewrite skipn_app, skipn_all, Nat.sub_diag; reflexivity).
        rewrite Sk, Sk'. destruct l2 as [|b l2]; [exfalso; rewrite E, app_length in Hi; cbn in Hi; lia|]. reflexivity. }
    set (n := List.length (a_active A)) in *. assert (Hn : (0 < n)%nat) by (unfold n; rewrite EA; cbn; lia).
    replace (Z.to_nat (Z.of_nat n - 1)) with (n - 1)%nat by lia. destruct (HS (n - 1)%nat 0%nat ltac:(lia)) as (t & -> & Ht). cbn [bind].
    rewrite (proj2 (Z.ltb_lt _ _)) by lia. cbn [Nat.add] in Ht. destruct (nth_error (a_active A) (n - 1)) as [e|] eqn:Ee; [|apply nth_error_None in Ee; unfold n in *; lia].
    cbn [bind]. rewrite <- (sapp_assoc t). fold (sh e). rewrite (Ht e eq_refl). cbn [skipn]. replace (Datatypes.S (n - 1)) with (List.length (a_active A)) by (unfold n in *; lia). rewrite firstn_all. reflexivity. }
  assert (W : Forall word (map sh (a_active A))) by (apply Forall_map, Forall_forall; intros; apply word_int).
  eexists. split; [exact HT|]. split.
  - apply expr_inside. apply comma_has; try reflexivity. eapply Forall_impl; [|exact W]. intros x Hx. apply word_no; auto. apply outside_special.
  - destruct (a_active A) as [|a l]; [exists ""; repeat split|]. apply (comma_literal (sh a) (map sh l)). exact W.
Qed.
(** The text of a selected constraint is the pair {index, status} *)
Theorem C60_selected : forall p s, show_selected p s = "{" ++ decimal p ++ ", " ++ decimal (status_value s) ++ "}" /\ expression (show_selected p s) /\
  pieces elem_sep (decimal p ++ ", " ++ decimal (status_value s)) = [decimal p; decimal (status_value s)].
Proof.
  intros p s. split; [reflexivity|]. split.
  - unfold show_selected. replace ("{" ++ show_int p ++ ", " ++ show_int (status_value s) ++ "}") with (String "{" (comma_list [show_int p; show_int (status_value s)] ++ "}")) by (cbn [comma_list append]; rewrite sapp_assoc; reflexivity).
    apply expr_bracket; [reflexivity..|]. apply inert_inside. apply comma_has; try reflexivity. repeat constructor; apply word_no; try apply outside_special; apply word_int.
  - apply (comma_pieces [decimal p; decimal (status_value s)]). repeat constructor; apply word_int.
Qed.
Theorem C60_status_values : forall s s', status_value s = status_value s' -> s = s'.
Proof. intros [] []; cbn; intros H; try reflexivity; discriminate H. Qed.

Section Log.
Context {V : Type} (show : V -> string).

(** ** The calls considered: names and numbers without special character, comments on one line, other values printed as
    one expression (numbers, active sets, selected constraints: see above) *)
Definition fit (v : @value V) : Prop :=
  match v with
  | VMat r c m => forall i j, (i < r)%nat -> (j < c)%nat -> word (show (m i j))
  | VList l => Forall (fun x => word (show x)) l
  | VOther t => expression t
  end.
Definition fit_op (o : @lop V) : Prop :=
  match o with
  | OLog _ _ args => Forall (fun a => word (fst a) /\ fit (snd a)) args
  | OComment _ _ texts => Forall (fun t => has (is newline) t = false) texts
  | OSub _ name => word name
  | _ => True
  end.
Inductive session : @lworld -> Prop :=
| ss_start ls : (forall l, In l ls -> exists os name flags, l = logger_new os name flags /\ word name) -> session (LW ls (fun _ => ""))
| ss_call w o : session w -> fit_op o -> session (lexec show w o).

(** what a value is, once written *)
Definition denotes (v : @value V) (rhs : string) : Prop :=
  match v with
  | VMat r c m => literal rhs (if (r * c =? 0)%nat then [] else table show r c m)
  | VList l => literal rhs [map show l]
  | VOther t => rhs = t
  end.
Definition empty_vector (v : @value V) : bool := match v with VList [] => true | _ => false end.
(** where a record goes: bit 31 of the flags is NO_ITER *)
Definition where_to (l : logger) (flag : N) (field : string) : string :=
  if N.testbit flag 31 then member (lg_name l ++ "Data") field else element (lg_name l) (lg_iter l + 1) field.
Definition records (l : logger) (flag : N) (args : list (string * @value V)) (rec : list (string * option string)) : Prop :=
  Forall2 (fun a e => fst e = where_to l flag (fst a) /\ exists rhs, snd e = Some rhs /\ denotes (snd a) rhs)
    (filter (fun a => negb (empty_vector (snd a))) args) rec.

(** ** Invariant *)
Definition winv (w : @lworld) : Prop := (forall l, In l (loggers w) -> word (lg_name l)) /\ forall os, complete (streams w os).

Lemma list_text_eq x l : list_text show (x :: l) = comma_list (map show (x :: l)) ++ "];" ++ nl.
Proof.
  revert x. induction l as [|y l IH]; intros x; [reflexivity|]. change (list_text show (x :: y :: l)) with (show x ++ ", " ++ list_text show (y :: l)). rewrite IH.
  change (comma_list (map show (x :: y :: l))) with (show x ++ ", " ++ comma_list (map show (y :: l))). rewrite !sapp_assoc. reflexivity.
Qed.
Lemma mat_expr r c m : (forall i j, (i < r)%nat -> (j < c)%nat -> word (show (m i j))) -> expression (toMatlab show r c m) /\ denotes (VMat r c m) (toMatlab show r c m).
Proof.
  intros H. destruct (Nat.eq_dec (r * c) 0) as [E|E].
  - destruct (C60_empty V show r c m E) as [E1 E2]. cbn [denotes]. rewrite E. cbn [Nat.eqb]. split; [|exact E2]. rewrite E1. apply (expr_inside ""). reflexivity.
  - assert (Hr : (0 < r)%nat) by (destruct r; lia). assert (Hc : (0 < c)%nat) by (destruct c; lia).
    split; [|cbn [denotes]; rewrite (proj2 (Nat.eqb_neq _ _) E); apply C60_toMatlab; auto].
    destruct (toMatlab_body show r c m Hr Hc H) as (b & -> & Hb & _). apply expr_inside, Hb.
Qed.
Lemma logVal_run l b name v : word (lg_name l) -> word name -> fit v -> empty_vector v = false ->
  exists rhs, denotes v rhs /\ complete (logVal show l b name v) /\ run (logVal show l b name v) = [((if b then element (lg_name l) (lg_iter l + 1) name else member (lg_name l ++ "Data") name), Some rhs)].
Proof.
  intros Hl Hn Hv He. set (lhs := logIter l b ++ "." ++ name).
  assert (El : lhs = (if b then element (lg_name l) (lg_iter l + 1) name else member (lg_name l ++ "Data") name)).
  { unfold lhs, logIter, element, member. destruct b; [rewrite !sapp_assoc; reflexivity|reflexivity]. }
  assert (Wl : word lhs).
  { rewrite El. destruct b; unfold element, member; rewrite ?sapp_assoc; apply word_app; auto; cbn [append has]; rewrite ?has_app.
    - change (decimal (lg_iter l + 1)) with (show_int (lg_iter l + 1)). rewrite (proj2 (word_int _)). cbn [has append]. rewrite (proj2 Hn). reflexivity.
    - rewrite (proj2 Hn). reflexivity. }
  rewrite <- El. clear El.
  assert (K : forall rhs, expression rhs -> logVal show l b name v = lhs ++ " = " ++ rhs ++ ";" ++ nl -> denotes v rhs -> exists rhs, denotes v rhs /\ complete (logVal show l b name v) /\ run (logVal show l b name v) = [(lhs, Some rhs)]).
  { intros rhs Hr E D. exists rhs. split; [exact D|]. rewrite E. apply stmt_assign; auto. }
  destruct v as [r c m|[|x vs]|t]; cbn [fit empty_vector] in Hv, He; try discriminate He.
  - apply (K (toMatlab show r c m)); [apply mat_expr, Hv| |apply mat_expr, Hv]. unfold lhs. cbn [logVal]. rewrite !sapp_assoc. reflexivity.
  - assert (W : Forall word (map show (x :: vs))) by (apply Forall_map; exact Hv). apply (K ("[" ++ comma_list (map show (x :: vs)) ++ "]")).
    + apply expr_inside. apply comma_has; try reflexivity. eapply Forall_impl; [|exact W]. intros y Hy. apply word_no; auto. apply outside_special.
    + cbn [logVal]. rewrite list_text_eq. unfold lhs. rewrite !sapp_assoc. reflexivity.
    + apply (comma_literal (show x) (map show vs)). exact W.
  - apply (K t); [exact Hv| |reflexivity]. unfold lhs. cbn [logVal]. rewrite !sapp_assoc. reflexivity.
Qed.
Lemma args_run l b args : word (lg_name l) -> Forall (fun a => word (fst a) /\ fit (snd a)) args ->
  complete (log_args show l b args) /\
  Forall2 (fun a e => fst e = (if b then element (lg_name l) (lg_iter l + 1) (fst a) else member (lg_name l ++ "Data") (fst a)) /\ exists rhs, snd e = Some rhs /\ denotes (snd a) rhs)
    (filter (fun a => negb (empty_vector (snd a))) args) (run (log_args show l b args)).
Proof.
  intros Hl. induction args as [|[n v] args IH]; intros H; [split; [apply complete_nil|constructor]|]. inversion H as [|? ? [H1 H2] H3]; subst. cbn [fst snd] in H1, H2.
  specialize (IH H3). destruct IH as [IH1 IH2]. unfold log_args in *. cbn [concat_map fst snd filter]. destruct (empty_vector v) eqn:Ev.
  - destruct v as [|[|]|]; try discriminate Ev. cbn [logVal negb append]. auto.
  - destruct (logVal_run l b n v Hl H1 H2 Ev) as (rhs & D & C & R). split; [apply complete_app; auto|]. rewrite run_app by exact C. rewrite R. cbn [negb app]. constructor; [|exact IH2]. cbn [fst snd]. eauto.
Qed.
Lemma land31 flag : negb (N.land flag noIterationFlag =? 0)%N = N.testbit flag 31.
Proof.
  assert (E : N.land flag noIterationFlag = if N.testbit flag 31 then noIterationFlag else 0%N).
  { apply N.bits_inj. intros n. rewrite N.land_spec. change noIterationFlag with (2 ^ 31)%N. rewrite N.pow2_bits_eqb. destruct (N.eqb_spec 31 n) as [<-|Hn].
    - destruct (N.testbit flag 31); rewrite ?N.pow2_bits_true, ?N.bits_0; reflexivity.
    - rewrite andb_false_r. destruct (N.testbit flag 31); [|rewrite N.bits_0; reflexivity]. rewrite N.pow2_bits_eqb. destruct (N.eqb_spec 31 n); congruence. }
  rewrite E. destruct (N.testbit flag 31); reflexivity.
Qed.
Lemma do_log_spec w l flag args : winv w -> word (lg_name l) -> Forall (fun a => word (fst a) /\ fit (snd a)) args ->
  let w' := do_log show w l flag args in winv w' /\ loggers w' = loggers w /\
  (forall os, os <> lg_os l \/ N.land flag (lg_flags l) = 0%N -> streams w' os = streams w os) /\
  (N.land flag (lg_flags l) <> 0%N -> exists rec, records l flag args rec /\ run (streams w' (lg_os l)) = (run (streams w (lg_os l)) ++ rec)%list).
Proof.
  intros [W1 W2] Hl Ha w'. unfold w', do_log, log. destruct (N.eqb_spec (N.land flag (lg_flags l)) 0) as [E|E]; cbn [negb].
  - rewrite E. split; [split; auto|]. split; [reflexivity|]. split; [reflexivity|]. intros H; contradiction H; reflexivity.
  - rewrite land31. destruct (args_run l (negb (N.testbit flag 31)) args Hl Ha) as [C F].
    assert (Ew : match (if N.testbit flag 31 then General (lg_name l) else PerIteration (lg_name l) (lg_iter l + 1)) with
                 | General _ => write w (lg_os l) (log_args show l false args) | _ => write w (lg_os l) (log_args show l true args) end
                 = write w (lg_os l) (log_args show l (negb (N.testbit flag 31)) args)) by (destruct (N.testbit flag 31); reflexivity).
    rewrite Ew. set (t := log_args show l (negb (N.testbit flag 31)) args) in *. unfold write. cbn [loggers streams]. split; [|split; [reflexivity|split]].
    + split; [exact W1|]. cbn [streams]. intros os. destruct (os =? lg_os l)%nat; [apply complete_app; auto|apply W2].
    + intros os [H|H]; [rewrite (proj2 (Nat.eqb_neq _ _) H); reflexivity|contradiction].
    + intros _. exists (run t). split; [|rewrite Nat.eqb_refl; apply run_app, W2]. unfold records, where_to.
      clear -F. induction F as [|a e la le [H1 H2] F IH]; constructor; auto. split; [|exact H2]. rewrite H1. destruct (N.testbit flag 31); reflexivity.
Qed.
Lemma in_set {A} (l : list A) k a x : In x (firstn k l ++ a :: skipn (Datatypes.S k) l) -> x = a \/ In x l.
Proof.
  intros H. apply in_app_or in H as [H|[H|H]]; [|left; auto|].
  - right. rewrite <- (firstn_skipn k l). apply in_or_app. auto.
  - right. rewrite <- (firstn_skipn (Datatypes.S k) l). apply in_or_app. auto.
Qed.
Lemma inv_start ls : (forall l, In l ls -> exists os name flags, l = logger_new os name flags /\ word name) -> winv (LW ls (fun _ => "")).
Proof. intros H. split; [|intros; apply complete_nil]. cbn. intros l Hl. destruct (H l Hl) as (os & name & flags & -> & Hn). exact Hn. Qed.
Lemma comment_no_nl texts : Forall (fun t => has (is newline) t = false) texts -> has (is newline) (concat_map (fun t => t) texts) = false.
Proof. induction 1 as [|t texts H F IH]; cbn [concat_map]; [reflexivity|]. rewrite has_app, H, IH. reflexivity. Qed.
Lemma nth_skipn {A} n : forall (l : list A) d, nth_error (skipn n l) d = nth_error l (n + d).
Proof. induction n as [|n IH]; intros [|x l] d; try reflexivity; cbn; [destruct d; reflexivity|apply IH]. Qed.
Lemma it_args i : Forall (fun a => word (fst a) /\ fit (snd a)) [("it", VOther (show_int i))].
Proof. constructor; [|constructor]. split; [split; [discriminate|reflexivity]|]. apply expr_word, word_int. Qed.
Lemma session_inv w : session w -> winv w.
Proof.
  induction 1 as [ls H|w o Hw IH Ho]; [apply inv_start, H|]. pose proof IH as [W1 W2]. destruct o as [k flag add|k os|k i|k flag args|k flag texts|k name]; cbn [lexec fit_op] in *;
    destruct (nth_error (loggers w) k) as [l|] eqn:El; auto; pose proof (W1 l (nth_error_In _ _ El)) as Wl.
  - split; [|exact W2]. cbn [set_logger loggers]. intros x Hx. apply in_set in Hx as [->|Hx]; auto. 
  - split; [|exact W2]. cbn [set_logger loggers]. intros x Hx. apply in_set in Hx as [->|Hx]; auto. 
  - apply do_log_spec; [|exact Wl|apply it_args].
    split; [|exact W2]. cbn [set_logger loggers]. intros x Hx. apply in_set in Hx as [->|Hx]; auto.
  - apply do_log_spec; auto.
  - unfold do_comment, comment. destruct (negb (N.land flag (lg_flags l) =? 0)%N); [|split; auto]. split; [exact W1|]. cbn [write streams]. intros os.
    destruct (os =? lg_os l)%nat; [|apply W2]. apply complete_app; [apply W2|]. apply complete_comment, comment_no_nl, Ho.
  - split; [|exact W2]. cbn [loggers]. intros x Hx. apply in_app_or in Hx as [Hx|[<-|[]]]; auto. cbn [lg_name]. rewrite ?sapp_assoc. apply word_app; auto. cbn [append has].
    rewrite !has_app, (proj2 (word_int _)). cbn [has append]. rewrite (proj2 Ho). reflexivity.
Qed.

(** ** C61: what each call adds to the script, at any point of any session *)
Theorem C61_log : forall w k l flag args, session w -> nth_error (loggers w) k = Some l -> fit_op (OLog k flag args) ->
  let w' := lexec show w (OLog k flag args) in loggers w' = loggers w /\
  (forall os, os <> lg_os l \/ N.land flag (lg_flags l) = 0%N -> streams w' os = streams w os) /\
  (N.land flag (lg_flags l) <> 0%N -> exists rec, records l flag args rec /\ run (streams w' (lg_os l)) = (run (streams w (lg_os l)) ++ rec)%list).
Proof.
  intros w k l flag args Hw El Ho. cbn [lexec]. rewrite El. pose proof (session_inv w Hw) as W. apply (do_log_spec w l flag args W); auto. apply W, (nth_error_In _ _ El).
Qed.
Theorem C61_comment : forall w k l flag texts, session w -> nth_error (loggers w) k = Some l -> fit_op (OComment k flag texts) ->
  let w' := lexec show w (OComment k flag texts) in loggers w' = loggers w /\ forall os, run (streams w' os) = run (streams w os) /\
  streams w' os = streams w os ++ (if (os =? lg_os l)%nat && negb (N.land flag (lg_flags l) =? 0)%N then "% " ++ concat_map (fun t => t) texts ++ nl else "").
Proof.
  intros w k l flag texts Hw El Ho. cbn [lexec]. rewrite El. pose proof (session_inv w Hw) as [W1 W2]. unfold do_comment, comment. destruct (negb (N.land flag (lg_flags l) =? 0)%N); cbn [write loggers streams].
  - split; [reflexivity|]. intros os. rewrite andb_true_r. destruct (os =? lg_os l)%nat; [|rewrite sapp_nil; auto]. split; [|reflexivity]. rewrite run_app by apply W2.
    destruct (complete_comment (concat_map (fun t => t) texts) (comment_no_nl _ Ho)) as [_ E]. unfold run at 2. rewrite E. cbn [map]. apply app_nil_r.
  - split; [reflexivity|]. intros os. rewrite andb_false_r, sapp_nil. auto.
Qed.
(** startIter remembers the iteration number; its own record goes to the general data *)
Theorem C61_startIter : forall w k l i, session w -> nth_error (loggers w) k = Some l -> (lg_flags l < 2 ^ 32)%N ->
  let w' := lexec show w (OStart k i) in
  (forall j, nth_error (loggers w') j = if (j =? k)%nat then Some (Lg (lg_flags l) i (lg_name l) (lg_os l)) else nth_error (loggers w) j) /\
  forall os, run (streams w' os) = (run (streams w os) ++ (if (os =? lg_os l)%nat && negb (lg_flags l =? 0)%N then [(member (lg_name l ++ "Data") "it", Some (decimal i))] else []))%list.
Proof.
  intros w k l i Hw El Hf. cbn [lexec]. rewrite El. pose proof (session_inv w Hw) as [W1 W2]. cbn [startIter fst]. set (l' := Lg (lg_flags l) i (lg_name l) (lg_os l)).
  assert (HL : N.land all32 (lg_flags l) = lg_flags l) by (rewrite N.land_comm; change all32 with (N.ones 32); rewrite N.land_ones; apply N.mod_small, Hf).
  assert (Wl : word (lg_name l)) by (apply W1, (nth_error_In _ _ El)).
  assert (WS : winv (set_logger w k l')) by (split; [|exact W2]; cbn [set_logger loggers]; intros x Hx; apply in_set in Hx as [->|Hx]; auto).
  destruct (do_log_spec (set_logger w k l') l' all32 [("it", VOther (show_int i))] WS Wl) as (_ & E1 & E2 & E3); [apply it_args|].
  cbn [lg_flags lg_os l'] in E2, E3. rewrite HL in E2, E3. split.
  - intros j. rewrite E1. cbn [set_logger loggers]. assert (Hk : (k < List.length (loggers w))%nat) by (apply nth_error_Some; congruence).
    assert (Lk : List.length (firstn k (loggers w)) = k) by (apply firstn_length_le; lia). destruct (Nat.eqb_spec j k) as [->|Hj].
    + rewrite nth_error_app2 by lia. rewrite Lk, Nat.sub_diag. reflexivity.
    + destruct (Nat.lt_ge_cases j k) as [Hlt|Hge].
      * rewrite nth_error_app1 by lia. clear -Hlt. revert j Hlt. generalize (loggers w). induction k as [|k IH]; intros ls j Hlt; [lia|]. destruct ls; [destruct j; reflexivity|]. destruct j; [reflexivity|]. cbn. apply IH. lia.
      * rewrite nth_error_app2 by lia. rewrite Lk. destruct (j - k)%nat as [|d] eqn:Ed; [lia|]. cbn [nth_error]. replace j with (Datatypes.S k + d)%nat by lia. apply nth_skipn.
  - intros os. destruct (Nat.eqb_spec os (lg_os l)) as [->|Ho]; [|cbn [andb]; rewrite E2 by auto; rewrite app_nil_r; reflexivity].
    destruct (N.eqb_spec (lg_flags l) 0) as [Z|Z]; cbn [andb negb]; [rewrite E2 by auto; rewrite app_nil_r; reflexivity|].
    destruct (E3 Z) as (rec & R1 & R2). rewrite R2. f_equal. unfold records in R1. cbn [filter fst snd empty_vector negb] in R1.
    inversion R1 as [|a e la le [F1 (rhs & F2 & F3)] F4]; subst. inversion F4; subst. cbn [denotes snd fst] in *. subst rhs. destruct e as [e1 e2]. cbn [fst snd] in *. subst. reflexivity.
Qed.
(** a sub-logger has the flags and stream of its parent and records under the current element of its parent *)
Theorem C61_subLog : forall w k l name, nth_error (loggers w) k = Some l ->
  let w' := lexec show w (OSub k name) in streams w' = streams w /\
  loggers w' = (loggers w ++ [logger_new (lg_os l) (element (lg_name l) (lg_iter l + 1) name) (lg_flags l)])%list.
Proof. intros w k l name El. cbn [lexec]. rewrite El. split; reflexivity. Qed.

Lemma last_app lhs a b : last_value lhs (a ++ b) = match last_value lhs b with Some v => Some v | None => last_value lhs a end.
Proof.
  induction a as [|[x y] a IH]; cbn [last_value app]; [destruct (last_value lhs b); reflexivity|]. rewrite IH. destruct (last_value lhs b); [reflexivity|]. destruct (last_value lhs a); reflexivity.
Qed.
(** Once the script is read, the field of the current iteration holds the value just logged, and the data of the other
    iterations are what they were *)
Theorem C61_reading_back : forall w k l flag name v, session w -> nth_error (loggers w) k = Some l -> word name -> fit v -> empty_vector v = false ->
  N.land flag (lg_flags l) <> 0%N -> N.testbit flag 31 = false ->
  let w' := lexec show w (OLog k flag [(name, v)]) in
  (exists rhs, last_value (element (lg_name l) (lg_iter l + 1) name) (run (streams w' (lg_os l))) = Some rhs /\ denotes v rhs) /\
  (forall i f, i <> (lg_iter l + 1)%Z -> last_value (element (lg_name l) i f) (run (streams w' (lg_os l))) = last_value (element (lg_name l) i f) (run (streams w (lg_os l)))).
Proof.
  intros w k l flag name v Hw El Hn Hv He Hf Hb w'. destruct (C61_log w k l flag [(name, v)] Hw El) as (_ & _ & H); [repeat constructor; auto; apply Hn|].
  destruct (H Hf) as (rec & R & E). fold w' in E. unfold records in R. cbn [filter snd] in R. rewrite He in R. cbn [negb] in R. inversion R as [|a e la le [F1 (rhs & F2 & F3)] F4]; subst. inversion F4; subst.
  destruct e as [e1 e2]. cbn [fst snd] in *. unfold where_to in F1. rewrite Hb in F1. subst e1 e2. rewrite E. split.
  - exists rhs. rewrite last_app. cbn [last_value]. rewrite String.eqb_refl. auto.
  - intros i f Hi. rewrite last_app. cbn [last_value]. destruct (String.eqb_spec (element (lg_name l) (lg_iter l + 1) name) (element (lg_name l) i f)) as [E'|_]; [|reflexivity].
    apply element_inj in E' as [E' _]. congruence.
Qed.
End Log.

(** The iteration number of a logger is the one of its last startIter (-1 before), its name never changes *)
Fixpoint last_start {V} (k : nat) (ops : list (@lop V)) (d : Z) : Z :=
  match ops with
  | [] => d
  | OStart k' i :: ops' => last_start k ops' (if (k' =? k)%nat then i else d)
  | _ :: ops' => last_start k ops' d
  end.
Lemma set_nth_err {A} (l : list A) k a j : (k < List.length l)%nat ->
  nth_error (firstn k l ++ a :: skipn (S k) l) j = if (j =? k)%nat then Some a else nth_error l j.
Proof.
  revert k j. induction l as [|x l IH]; intros [|k] [|j] H; cbn in H; try lia; try reflexivity. cbn. apply IH. lia.
Qed.
Theorem C61_iteration : forall V (show : V -> string) ops w k l0, nth_error (loggers w) k = Some l0 ->
  exists l, nth_error (loggers (fold_left (lexec show) ops w)) k = Some l /\ lg_iter l = last_start k ops (lg_iter l0) /\ lg_name l = lg_name l0.
Proof.
  intros V show ops. induction ops as [|o ops IH]; intros w k l0 H; [exists l0; auto|]. cbn [fold_left].
  assert (K : exists l1, nth_error (loggers (lexec show w o)) k = Some l1 /\ lg_name l1 = lg_name l0 /\ lg_iter l1 = last_start k [o] (lg_iter l0)).
  { assert (HD : forall w l flag args, loggers (do_log show w l flag args) = loggers w) by (intros; unfold do_log; destruct (log l flag) as [[? []]|]; reflexivity).
    destruct o as [k' flag add|k' os|k' i|k' flag args|k' flag texts|k' name]; cbn [lexec last_start]; (destruct (nth_error (loggers w) k') as [l|] eqn:E; [|exists l0; repeat split; auto; destruct (Nat.eqb_spec k' k); congruence]);
      assert (Hk : (k' < List.length (loggers w))%nat) by (apply nth_error_Some; congruence).
    - cbn [set_logger loggers]. rewrite set_nth_err by exact Hk. destruct (Nat.eqb_spec k k') as [->|_]; eexists; (split; [reflexivity||exact H|]); [|auto]. assert (l = l0) by congruence. subst. auto.
    - cbn [set_logger loggers]. rewrite set_nth_err by exact Hk. destruct (Nat.eqb_spec k k') as [->|_]; eexists; (split; [reflexivity||exact H|]); [|auto]. assert (l = l0) by congruence. subst. auto.
    - rewrite HD. cbn [set_logger loggers startIter fst]. rewrite set_nth_err by exact Hk. rewrite (Nat.eqb_sym k' k). destruct (Nat.eqb_spec k k') as [->|_]; eexists; (split; [reflexivity||exact H|]); [|auto]. assert (l = l0) by congruence. subst. auto.
    - rewrite HD. eauto.
    - unfold do_comment. destruct (comment l flag) as [[? ?]|]; cbn [write loggers]; eauto.
    - cbn [loggers]. rewrite nth_error_app1 by (apply nth_error_Some; congruence). eauto. }
  destruct K as (l1 & H1 & N1 & I1). destruct (IH _ k l1 H1) as (l & Hl & I & N). exists l. split; [exact Hl|]. split; [|congruence].
  rewrite I, I1. destruct o; reflexivity.
Qed.

(** ** Findings *)
(** Data of the current iteration logged before the first startIter, or after the reset that every solve() starts with
    (startIter(-1)), goes to element 0, which Matlab refuses.  BoxAndSingleConstraintSolver does that
    (src/experimental/BoxAndSingleConstraintSolver.cpp:21, 91). *)
Theorem C61_before_first_iteration : forall V (show : V -> string) w k l flag args, session show w -> nth_error (loggers w) k = Some l -> fit_op show (OLog k flag args) ->
  lg_iter l = (-1)%Z -> N.land flag (lg_flags l) <> 0%N -> N.testbit flag 31 = false ->
  exists rec, run (streams (lexec show w (OLog k flag args)) (lg_os l)) = (run (streams w (lg_os l)) ++ rec)%list /\
  Forall2 (fun a e => fst e = element (lg_name l) 0 (fst a)) (filter (fun a => negb (empty_vector (snd a))) args) rec.
Proof.
  intros V show w k l flag args Hw El Ho Hi Hf Hb. destruct (C61_log show w k l flag args Hw El Ho) as (_ & _ & H). destruct (H Hf) as (rec & R & E). exists rec. split; [exact E|].
  unfold records, where_to in R. rewrite Hb, Hi in R. clear -R. induction R as [|a e la le [H1 _] F IH]; constructor; auto.
Qed.
(** The Hessian and the constraints of the block solver are logged as "logData.G = ;" *)
Theorem C61_structured_input : forall l : logger, lg_name l = "log" -> forall name, word name ->
  logVal (V:=Z) show_int l false name (VOther show_structured) = member "logData" name ++ " = ;" ++ nl /\
  run (logVal (V:=Z) show_int l false name (VOther show_structured)) = [(member "logData" name, Some "")].
Proof.
  intros l Hl name Hn. assert (E : logVal (V:=Z) show_int l false name (VOther show_structured) = member "logData" name ++ " = ;" ++ nl) by (cbn [logVal logIter]; rewrite Hl; unfold member, show_structured; rewrite !sapp_assoc; reflexivity).
  split; [exact E|]. rewrite E. assert (W : word (member "logData" name)) by (unfold member; apply word_app; [split; [discriminate|reflexivity]|]; cbn [append has]; rewrite (proj2 Hn); reflexivity).
  set (a := member "logData" name) in *. replace (a ++ " = ;" ++ nl) with ((a ++ " = ") ++ ";" ++ nl) by (rewrite sapp_assoc; reflexivity).
  unfold run. destruct (complete_stmt (a ++ " = ")) as [_ ->]; [eapply inert_app; [apply inert_word, W|apply inert_plain; reflexivity]|destruct a; discriminate|].
  cbn [map]. replace (a ++ " = ") with (a ++ " = " ++ "") by reflexivity. rewrite assignment_eq; auto. intros s' H. discriminate H.
Qed.
(** a comment on two lines puts its second line in the script *)
Example C61_comment_line_needed :
  run (streams (lexec (V:=Z) show_int (LW [logger_new 0 "log" 1] (fun _ => "")) (OComment 0 1 ["step" ++ nl ++ "x = 3"])) 0) = [("x", Some "3")].
Proof. reflexivity. Qed.

(** ** Examples *)
Definition ex_mat (i j : nat) : Z := Z.of_nat i * 10 - Z.of_nat j.
Example C60_nonvacuous : toMatlab show_int 2 3 ex_mat = "[ 0, -1, -2;" ++ nl ++ " 10,  9,  8]" /\ toMatlab show_int 3 1 ex_mat = "[ 0; 10; 20]" /\
  table show_int 2 3 ex_mat = [["0"; "-1"; "-2"]; ["10"; "9"; "8"]] /\ forall i j, word (show_int (ex_mat i j)).
Proof. repeat split; try reflexivity; apply word_int. Qed.
(** tests/main.cpp, without the arguments that are not emitted *)
Definition ex_ops : list (@lop Z) :=
  [OSetFlag 0 1 true; OStart 0 0; OLog 0 1 [("test", VOther "3")]; OLog 0 16 [("test2", VOther "4")]; OStart 0 1;
   OLog 0 1 [("n", VOther "5"); ("A", VMat 2 3 ex_mat); ("as", VList []); ("w", VList [4; -6]%Z)]; OSub 0 "choice"; OStart 1 0; OLog 1 1 [("b", VMat 3 1 ex_mat)];
   OComment 0 1 ["This is a comment"]; OLog 0 0x80000001 [("c", VOther "2")]].
Definition ex_log : @lworld := fold_left (lexec show_int) ex_ops (LW [logger_new 0 "qp" 0] (fun _ => "")).
Example C61_session : session show_int ex_log.
Proof.
  assert (G : forall ops w, session show_int w -> Forall (fit_op show_int) ops -> session show_int (fold_left (lexec show_int) ops w)).
  { induction ops as [|o ops IH]; intros w Hw Ho; [exact Hw|]. inversion Ho; subst. cbn [fold_left]. apply IH; auto. apply ss_call; auto. }
  apply G; [apply ss_start; intros l [<-|[]]; exists 0%nat, "qp", 0%N; split; [reflexivity|split; [discriminate|reflexivity]]|].
  assert (X : forall z, expression (show_int z)) by (intros; apply expr_word, word_int).
  assert (W : forall n : string, n <> "" -> has special n = false -> word n) by (intros n; split; auto).
  pose proof (X 2%Z) as X2. pose proof (X 3%Z) as X3. pose proof (X 4%Z) as X4. pose proof (X 5%Z) as X5.
  unfold ex_ops. repeat (apply Forall_cons || apply Forall_nil || cbn [fit_op fst snd fit] || exact I || reflexivity || split || discriminate || assumption || (intros; apply word_int)). all: match goal with |- forall s, scan _ (?t ++ _) = _ => intros s; first [apply X2 | apply X3 | apply X4 | apply X5] end.
Qed.
Example C61_nonvacuous : run (streams ex_log 0) =
  [("qpData.it", Some "0"); ("qp(1).test", Some "3"); ("qpData.it", Some "1"); ("qp(2).n", Some "5"); ("qp(2).A", Some ("[ 0, -1, -2;" ++ nl ++ " 10,  9,  8]"));
   ("qp(2).w", Some "[4, -6]"); ("qp(2).choiceData.it", Some "0"); ("qp(2).choice(1).b", Some "[ 0; 10; 20]"); ("qpData.c", Some "2")].
Proof. vm_compute. reflexivity. Qed.

(** C66: re-using one block solver object. *)
From Coq Require Import PrimFloat.
From Coq Require Import List Arith ZArith Lia Bool.
From Verif Require Import Base ActiveSet ActiveSetProofs Num Solver LinAlg GIBase GISafe GICall GIHist GISame Warm WarmAS RunFloat FloatLaws FloatNull
  Block BlockSpec BlockDense PropBlock Ortho StructC PropStructC StructG BlockGI BlockGen BlockGenQR BlockGenGI PropBlockGen BlockSame BlockSameGI BlockSameRun BlockSameSolve.
Import ListNotations.

(** * Specification *)
(** Two calls that cannot be told apart by the user: same status, iteration count and active set; same point, objective value and
    multipliers unless the call stopped before computing any. *)
Definition bsame_answers {S : ops} (st1 : term_status) (y1 : bsol S) (st2 : term_status) (y2 : bsol S) : Prop :=
  st1 = st2 /\ iterations (b_s y1) = iterations (b_s y2) /\ activeSet (b_s y1) = activeSet (b_s y2) /\
  (st1 <> NON_POS_HESSIAN -> st1 <> OVERCONSTRAINED_PROBLEM ->
     (exists x, solution (b_s y1) = Ok x /\ solution (b_s y2) = Ok x) /\ objectiveValue (b_s y1) = objectiveValue (b_s y2) /\
     exists lam u1 u2, multipliers (b_s y1) = Ok (lam, u1) /\ multipliers (b_s y2) = Ok (lam, u2)).

(** Two block matrices of one structure, with the same off-diagonal blocks, whose diagonal blocks have the same lower triangles *)
Definition same_lower {S : ops} (G G' : structG S) : Prop :=
  g_type G = g_type G' /\ g_n G = g_n G' /\ g_dec G = g_dec G' /\ length (g_diag G) = length (g_diag G') /\ length (g_off G) = length (g_off G') /\
  (forall k D D', nth_error (g_diag G) k = Some D -> nth_error (g_diag G') k = Some D' ->
     brow D = brow D' /\ bcol D = bcol D' /\ forall i j, (j <= i)%nat -> (i < brow D)%nat -> bm D i j = bm D' i j) /\
  (forall k B B', nth_error (g_off G) k = Some B -> nth_error (g_off G') k = Some B' ->
     brow B = brow B' /\ bcol B = bcol B' /\ forall i j, (i < brow B)%nat -> (j < bcol B)%nat -> bm B i j = bm B' i j).

(** * Link *)
Lemma f2_nth {A B} (P : A -> B -> Prop) l : forall l', length l = length l' -> (forall k a b, nth_error l k = Some a -> nth_error l' k = Some b -> P a b) -> Forall2 P l l'.
Proof.
  induction l as [|a l IH]; intros [|b l'] E H; try discriminate; constructor.
  - apply (H 0%nat a b); reflexivity.
  - apply IH; [injection E as E; exact E|]. intros k. apply (H (Datatypes.S k)).
Qed.
Lemma same_lower_gagr (S : ops) (G G' : structG S) : same_lower G G' -> gagr S G G'.
Proof.
  intros (H1 & H2 & H3 & H4 & H5 & H6 & H7). split; auto.
  - apply f2_nth; [assumption|]. intros k D D' E E'. destruct (H6 k D D' E E') as (K1 & K2 & K3). split; [exact K1|]. split; [exact K2|]. intros i j Hij Hi. apply K3; auto.
  - apply f2_nth; [assumption|]. intros k D D' E E'. destruct (H7 k D D' E E') as (K1 & K2 & K3). split; [exact K1|]. split; [exact K2|]. exact K3.
Qed.

Lemma breuse_lemma (S : ops) isz tiny junk1 junk2 bp Cs G' o w1 w2 b1 b2 st1 y1 st2 y2 : bghistory S isz tiny b1 -> bghistory S isz tiny b2 -> bp_C bp = stc_new Cs ->
  gagr S (bp_G bp) G' -> eff_ws S junk1 bp o w1 b1 = eff_ws S junk2 (with_cost bp G') o w2 b2 ->
  bgi_solve isz tiny junk1 bp o w1 b1 = Ok (st1, y1) -> bgi_solve isz tiny junk2 (with_cost bp G') o w2 b2 = Ok (st2, y2) -> bsame_answers st1 y1 st2 y2.
Proof.
  intros H1 H2 HC HG Ew E1 E2. pose proof (bghistory_wf S isz tiny b1 H1) as W1. pose proof (bghistory_wf S isz tiny b2 H2) as W2.
  destruct (bsolve_same S isz tiny junk1 junk2 bp Cs G' o w1 w2 b1 b2 W1 W2 HC HG Ew (st1, y1) (st2, y2) E1 E2) as (Est & Eit & EA & Hsim).
  cbn [fst snd] in *. split; [exact Est|]. split; [exact Eit|]. split; [unfold activeSet; congruence|]. intros N1 N2. specialize (Hsim N1 N2). apply bm_s in Hsim.
  pose proof (bsolve_keep S isz tiny _ _ _ _ _ _ _ W1 E1) as V1. pose proof (bsolve_keep S isz tiny _ _ _ _ _ _ _ W2 E2) as V2.
  pose proof (bsolve_exp S isz tiny _ _ _ _ _ _ _ W1 E1) as X1.
  destruct (bsolution S _ _ _ _ V1) as (v1 & Ev1 & _). destruct (bsolution S _ _ _ _ V2) as (v2 & Ev2 & _).
  split. { exists v1. split; [exact Ev1|]. rewrite Ev2. f_equal. symmetry. exact (csolution_sim S 0 _ _ Hsim v1 v2 Ev1 Ev2). }
  split; [apply Hsim|].
  destruct (bmult S _ _ _ _ V1) as (l1 & u1 & Em1 & _). destruct (bmult S _ _ _ _ V2) as (l2 & u2 & Em2 & _).
  pose proof (cmult_sim S _ _ Hsim X1 _ _ Em1 Em2) as El. simpl in El. subst l2. eauto.
Qed.

(** * C66 *)
(** With statuses given, or without warm start, the earlier life of the object, the contents of fresh memory and what the diagonal
    blocks hold above their diagonals make no difference, in any arithmetic. *)
Theorem C66_reuse : forall (S : ops) isz tiny junk1 junk2 bp G' o ws b1 b2 st1 y1 st2 y2,
  bghistory S isz tiny b1 -> bghistory S isz tiny b2 -> (exists Cs, bp_C bp = stc_new Cs) -> (o_warm o = false \/ ws <> []) -> same_lower (bp_G bp) G' ->
  bgi_solve isz tiny junk1 bp o ws b1 = Ok (st1, y1) -> bgi_solve isz tiny junk2 (with_cost bp G') o ws b2 = Ok (st2, y2) -> bsame_answers st1 y1 st2 y2.
Proof.
  intros S isz tiny junk1 junk2 bp G' o ws b1 b2 st1 y1 st2 y2 H1 H2 (Cs & HC) Hw HG E1 E2.
  apply (breuse_lemma S isz tiny junk1 junk2 bp Cs G' o ws ws b1 b2); auto; [apply same_lower_gagr; exact HG|].
  unfold eff_ws. destruct (o_warm o); [|reflexivity]. destruct Hw as [|Hw]; [discriminate|]. destruct ws; [congruence|reflexivity].
Qed.

(** And the two calls are defined together. *)
Theorem C66_reuse_defined : forall (S : ops) isz tiny junk1 junk2 bp G' o ws b1 b2,
  usable S isz -> leb S (o_bigBnd o) (o_bigBnd o) = true ->
  bghistory S isz tiny b1 -> bghistory S isz tiny b2 -> block_data bp -> block_data (with_cost bp G') -> (o_warm o = false \/ ws <> []) -> same_lower (bp_G bp) G' ->
  (bgi_solve isz tiny junk1 bp o ws b1 = UB /\ bgi_solve isz tiny junk2 (with_cost bp G') o ws b2 = UB) \/
  exists st1 y1 st2 y2, bgi_solve isz tiny junk1 bp o ws b1 = Ok (st1, y1) /\ bgi_solve isz tiny junk2 (with_cost bp G') o ws b2 = Ok (st2, y2) /\ bsame_answers st1 y1 st2 y2.
Proof.
  intros S isz tiny junk1 junk2 bp G' o ws b1 b2 HU HB H1 H2 HD HD' Hw HG.
  pose proof (C63_undefined_exactly S isz tiny junk1 bp o ws b1 HU H1 HD HB) as U1. pose proof (C63_undefined_exactly S isz tiny junk2 (with_cost bp G') o ws b2 HU H2 HD' HB) as U2. cbv zeta in U1, U2.
  assert (En : nvar (with_cost bp G') = nvar bp) by (symmetry; apply HG).
  assert (Eu : used junk2 (with_cost bp G') o ws b2 = used junk1 bp o ws b1).
  { unfold used. destruct (o_warm o); [|reflexivity]. destruct Hw as [|Hw]; [discriminate|]. destruct ws; [congruence|reflexivity]. }
  rewrite Eu in U2. set (us := used junk1 bp o ws b1) in *. clearbody us.
  assert (Es : sizes_fit (with_cost bp G') <-> sizes_fit bp) by (unfold sizes_fit; rewrite En; reflexivity).
  assert (Et : too_many_equalities (with_cost bp G') us <-> too_many_equalities bp us) by (unfold too_many_equalities; rewrite En; reflexivity).
  assert (Ef : factorises (with_cost bp G') <-> factorises bp).
  { destruct (stg_llt_sz S _ (data_shape S bp HD)) as (ok & GL & EL & _). destruct (stg_llt_sz S _ (data_shape S _ HD')) as (ok' & GL' & EL' & _).
    pose proof (stg_llt_agr S _ _ (same_lower_gagr _ _ _ HG) _ _ EL EL') as (Eok & _). cbn [fst] in Eok. subst ok'.
    unfold factorises. rewrite EL, EL'. split; intros (g & Hg); injection Hg as -> <-; eauto. }
  change (all (with_cost bp G')) with (all bp) in U2. change (wrong_kind (with_cost bp G') us) with (wrong_kind bp us) in U2.
  change (fun i => starts_active (with_cost bp G') o us i) with (fun i => starts_active bp o us i) in U2. rewrite Es, Et, Ef, En in U2.
  destruct (bgi_solve isz tiny junk1 bp o ws b1) as [(st1, y1)|] eqn:E1, (bgi_solve isz tiny junk2 (with_cost bp G') o ws b2) as [(st2, y2)|] eqn:E2.
  - right. exists st1, y1, st2, y2. split; [reflexivity|]. split; [reflexivity|]. apply (C66_reuse S isz tiny junk1 junk2 bp G' o ws b1 b2); auto. apply HD.
  - exfalso. assert (K : Ok (st1, y1) = UB) by (apply U1, U2; reflexivity). discriminate.
  - exfalso. assert (K : Ok (st2, y2) = UB) by (apply U2, U1; reflexivity). discriminate.
  - left. auto.
Qed.

(** * Examples: IEEE doubles *)
Section Examples.
Local Open Scope float_scope.
(** an object that has solved a problem in three variables, against a new one; fresh memory holding 7 or nan; what is above the
    diagonal of the 2 x 2 block is 1 or 12345 *)
Definition rG (u : float) : structG Fops := @StG Fops TriBlockDiagonal [@Bk Fops 2 2 (fun i j => if (i =? j)%nat then 4 else if (j <? i)%nat then 1 else u)] [] 2 false.
Definition rpb : bproblem Fops :=
  @BP Fops (rG 1) (fun i => if (i =? 0)%nat then -3 else 0.5) 2 (stc_new [@Bk Fops 2 2 (fun i j => if (i =? j)%nat then 1 else 0.25)])
    (fun _ => Some 0.125) 2 (fun _ => None) 2 (fun _ => None) 0 (fun _ => None) 0.
Definition rold : bproblem Fops :=
  @BP Fops (@StG Fops TriBlockDiagonal [f1 2; f1 2; f1 2] [f1 1; f1 1] 3 false) (fun i => 1) 3 (stc_new [f1 1; f1 1; f1 1]) (fun _ => Some 1) 3 (fun _ => None) 3 (fun _ => None) 0 (fun _ => None) 0.
Definition rall (r : res (term_status * bsol Fops)) : res (term_status * nat * list status * list float * list float) :=
  do x <- r; do v <- solution (b_s (snd x)); do m <- multipliers (b_s (snd x)); Ok (fst x, iterations (b_s (snd x)), activeSet (b_s (snd x)), v, fst m).
Definition rused (k : bsol Fops -> res (term_status * nat * list status * list float * list float)) :=
  do x <- bgi_solve (S := Fops) fz 0 (fun _ => 7) rold (exo true) [] bsol_new; k (snd x).
Lemma r_lower : same_lower (bp_G rpb) (rG 12345).
Proof.
  repeat (split; [reflexivity|]). split.
  - intros [|[|k]] D D' E E'; try discriminate. injection E as <-. injection E' as <-. repeat (split; [reflexivity|]). intros i j Hij Hi. cbn in Hi.
    destruct i as [|[|]], j as [|[|]]; try lia; reflexivity.
  - intros [|k] B B' E; discriminate.
Qed.
Example C66_nonvacuous :
  usable Fops fz /\ leb Fops (o_bigBnd (exo true)) (o_bigBnd (exo true)) = true /\ block_data rpb /\ block_data (with_cost rpb (rG 12345)) /\ same_lower (bp_G rpb) (rG 12345) /\
  bghistory Fops fz 0 bsol_new /\ (forall st y, bgi_solve (S := Fops) fz 0 (fun _ => 7) rold (exo true) [] bsol_new = Ok (st, y) -> bghistory Fops fz 0 y) /\
  seen (bgi_solve (S := Fops) fz 0 (fun _ => 7) rold (exo true) [] bsol_new) = Ok (SUCCESS, 3%nat, [LOWER; LOWER; LOWER]) /\
  (exists st it x lam, rall (bgi_solve (S := Fops) fz 0 (fun _ => nan) rpb (exo true) [] bsol_new) = Ok (st, it, [INACTIVE; LOWER], x, lam) /\ st = SUCCESS /\ it = 1%nat /\
     rused (fun y => rall (bgi_solve (S := Fops) fz 0 (fun _ => 7) (with_cost rpb (rG 12345)) (exo true) [] y)) = Ok (st, it, [INACTIVE; LOWER], x, lam)).
Proof.
  assert (HD : forall u, block_data (with_cost rpb (rG u))).
  { intros u. split; [|eexists; reflexivity]. exists TriBlockDiagonal, (g_diag (rG u)), []. split; [reflexivity|]. split; [reflexivity|]. split; [repeat constructor|].
    intros k B D D1 E. destruct k; discriminate. }
  split; [apply usable_float; reflexivity|]. split; [reflexivity|]. split; [exact (HD 1)|]. split; [apply HD|]. split; [apply r_lower|]. split; [apply bgh_new|].
  split; [intros st y E; exact (bgh_solve _ _ _ _ _ _ _ _ _ _ (bgh_new _ _ _) E)|]. split; [vm_compute; reflexivity|].
  eexists _, _, _, _. split; [vm_compute; reflexivity|]. split; [reflexivity|]. split; [reflexivity|]. vm_compute. reflexivity.
Qed.
End Examples.

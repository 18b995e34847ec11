(** Proofs for C78: the stable solver touches its buffers and its active set only as [Alloc.v] says, for every arithmetic. *)
From Coq Require Import List Arith ZArith Lia Bool.
From Verif Require Import Base Num ActiveSet ActiveSetProofs Solver Alloc PropAlloc.
Import ListNotations.

Section A.
Variable S : ops.
Notation solT := (sol S).

(** [B] is reached from [A] by operations that keep the sizes of the active set *)
Definition small (o : as_op) : Prop := match o with OpResize _ _ => False | _ => True end.
Definition path (A B : aset) : Prop := exists l, Forall small l /\ as_run A l = Ok B.
Lemma path_refl A : path A A.
Proof. exists []. split; [constructor|reflexivity]. Qed.
Lemma run_app l m A B C : as_run A l = Ok B -> as_run B m = Ok C -> as_run A (l ++ m) = Ok C.
Proof.
  revert A. induction l as [|o l IH]; intros A H1 H2; cbn [as_run app] in *; [injection H1 as ->; exact H2|].
  destruct (as_step A o) as [A'|]; [|discriminate]. cbn [bind] in *. eauto.
Qed.
Lemma path_trans A B C : path A B -> path B C -> path A C.
Proof. intros (l & F & H) (m & G & K). exists (l ++ m). split; [apply Forall_app; auto|eapply run_app; eauto]. Qed.
Lemma path_act A i st B : as_activate A i st = Ok B -> path A B.
Proof. intros H. exists [OpActivate i st]. split; [constructor; cbn; auto|]. cbn [as_run as_step]. rewrite H. reflexivity. Qed.
Lemma path_dea A k B : as_deactivate A k = Ok B -> path A B.
Proof. intros H. exists [OpDeactivate k]. split; [constructor; cbn; auto|]. cbn [as_run as_step]. rewrite H. reflexivity. Qed.
Lemma path_reset A : path A (as_reset A).
Proof. exists [OpReset]. split; [constructor; cbn; auto|reflexivity]. Qed.

(** same number of variables, same buffer sizes, and an active set reached by a path *)
Definition mv (s t : solT) : Prop :=
  s_n t = s_n s /\ w_size (s_x t) = w_size (s_x s) /\ w_size (s_z t) = w_size (s_z s) /\ w_size (s_u t) = w_size (s_u s) /\ w_size (s_r t) = w_size (s_r s) /\
  w_size (s_d t) = w_size (s_d s) /\ w_size (s_J t) = w_size (s_J s) /\ w_size (s_R t) = w_size (s_R s) /\ path (s_A s) (s_A t).
Lemma mv_refl s : mv s s.
Proof. repeat split. apply path_refl. Qed.
Lemma mv_trans s t v : mv s t -> mv t v -> mv s v.
Proof. intros (a1 & a2 & a3 & a4 & a5 & a6 & a7 & a8 & a9) (b1 & b2 & b3 & b4 & b5 & b6 & b7 & b8 & b9). repeat split; try congruence. eapply path_trans; eauto. Qed.
(** the setters *)
Ltac easymv := repeat split; try reflexivity; apply path_refl.
Lemma mv_u s w b : s_u s = w -> mv s (set_u s (wset w b)). Proof. intros <-. easymv. Qed.
Ltac stp := repeat match goal with
  | H : bind _ _ = Ok _ |- _ => apply bind_ok in H as (? & ? & H)
  | H : guard _ _ = Ok _ |- _ => apply guard_ok in H as (? & H)
  | H : Ok _ = Ok _ |- _ => injection H as <-
  | H : (let '(_, _) := ?x in _) = _ |- _ => let a := fresh "a" in let b := fresh "b" in destruct x as [a b]
  end.

Lemma computeStep_mv pb s sc t : computeStep pb s sc = Ok t -> mv s t.
Proof. unfold computeStep. cbv zeta. intros H. stp; easymv. Qed.
Lemma addConstraint__mv s t : addConstraint_ s = Ok t -> mv s t.
Proof. unfold addConstraint_. cbv zeta. intros H. stp; easymv. Qed.
Lemma addConstraint_mv s sc t : addConstraint s sc = Ok t -> mv s t.
Proof.
  unfold addConstraint. intros H. stp. apply addConstraint__mv in H. eapply mv_trans; [|exact H]. repeat split. cbn. eapply path_act; eauto.
Qed.
Lemma removeConstraint__mv s l t : removeConstraint_ s l = Ok t -> mv s t.
Proof. unfold removeConstraint_. cbv zeta. intros H. stp; easymv. Qed.
Lemma removeConstraint_mv s l t : removeConstraint s l = Ok t -> mv s t.
Proof.
  unfold removeConstraint. cbv zeta. intros H. stp. apply removeConstraint__mv in H. eapply mv_trans; [|exact H]. repeat split. cbn. eapply path_dea; eauto.
Qed.
Lemma addInitial_mv pb s sc t : addInitialConstraint pb s sc = Ok t -> mv s t.
Proof.
  unfold addInitialConstraint. cbv zeta. intros H. stp.
  match goal with C : computeStep _ _ _ = Ok ?v |- _ => apply computeStep_mv in C; assert (M : mv s v) by (eapply mv_trans; [|exact C]; easymv) end.
  apply addConstraint_mv in H. eapply mv_trans; [exact M|]. eapply mv_trans; [|exact H]. easymv.
Qed.
Lemma init_cstr_mv pb k : forall s t, init_cstr pb k s = Ok t -> mv s t.
Proof.
  induction k as [|k IH]; intros s t H; cbn [init_cstr] in H; [injection H as <-; apply mv_refl|]. apply bind_ok in H as (v & E & H).
  eapply mv_trans; [exact (IH _ _ E)|]. destruct (bounds_eq _ _); [eapply addInitial_mv; eauto|injection H as <-; apply mv_refl].
Qed.
Lemma init_bnd_mv pb k : forall s t, init_bnd pb k s = Ok t -> mv s t.
Proof.
  induction k as [|k IH]; intros s t H; cbn [init_bnd] in H; [injection H as <-; apply mv_refl|]. apply bind_ok in H as (v & E & H).
  eapply mv_trans; [exact (IH _ _ E)|]. destruct (bounds_eq _ _); [eapply addInitial_mv; eauto|injection H as <-; apply mv_refl].
Qed.
Lemma gi_init_mv pb o s st t : gi_init pb o s = Ok (st, t) -> mv s t.
Proof.
  unfold gi_init. cbv zeta. intros H. destruct (llt (s_n s) (p_G pb)) as [ret M]. destruct ret as [k|].
  - injection H as <- <-. easymv.
  - apply bind_ok in H as (J0 & _ & H). apply bind_ok in H as (x0 & _ & H). apply bind_ok in H as (v & E & H). injection H as _ <-.
    unfold initActiveSet in E. apply bind_ok in E as (w & E1 & E2). apply init_cstr_mv in E1. apply init_bnd_mv in E2.
    eapply mv_trans; [|eapply mv_trans; [exact E1|exact E2]]. repeat split. cbn. apply path_reset.
Qed.
Lemma dual_init_mv pb o s st t : dual_init (@gi_init S) pb o s = Ok (st, t) -> mv s t.
Proof.
  unfold dual_init. cbv zeta. intros H. apply gi_init_mv in H. eapply mv_trans; [|exact H]. destruct (o_warm o); repeat split; cbn; [apply path_refl|apply path_reset].
Qed.
Lemma step1_mv pb l l1 : step1 pb l = Ok (Some l1) -> mv (l_s l) (l_s l1).
Proof.
  unfold step1. cbv zeta. destruct (l_skip l); [intros H; injection H as <-; apply mv_refl|]. intros H. apply bind_ok in H as (sc & _ & H).
  destruct (sc_st sc); try discriminate; apply bind_ok in H as (? & _ & H); apply bind_ok in H as (? & _ & H); injection H as <-; easymv.
Qed.
Definition out_mv (s : solT) (r : iter_out S) : Prop := match r with Continue l => mv s (l_s l) | Stop _ t => mv s t end.
Lemma step2_mv pb o l r : step2 pb o l = Ok r -> out_mv (l_s l) r.
Proof.
  unfold step2. cbv zeta. intros H. apply bind_ok in H as (v & E & H). apply computeStep_mv in E. apply bind_ok in H as ([[t1 t2] li] & _ & H).
  destruct (leb S (o_bigBnd o) _); [injection H as <-; exact E|].
  destruct (leb S (o_bigBnd o) t2).
  - apply bind_ok in H as (w & E2 & H). apply bind_ok in H as (? & _ & H). apply bind_ok in H as (? & _ & H). injection H as <-. cbn. apply removeConstraint_mv in E2.
    eapply mv_trans; [exact E|]. eapply mv_trans; [|exact E2]. easymv.
  - apply bind_ok in H as (nz & _ & H). destruct (eqb S _ t2).
    + apply bind_ok in H as (w & E2 & H). injection H as <-. cbn. apply addConstraint_mv in E2. eapply mv_trans; [exact E|]. eapply mv_trans; [|exact E2]. easymv.
    + apply bind_ok in H as (w & E2 & H). apply bind_ok in H as (? & _ & H). apply bind_ok in H as (? & _ & H). injection H as <-. cbn. apply removeConstraint_mv in E2.
      eapply mv_trans; [exact E|]. eapply mv_trans; [|exact E2]. easymv.
Qed.
Lemma iter_mv pb o l r : iter pb o l = Ok r -> out_mv (l_s l) r.
Proof.
  unfold iter. intros H. apply bind_ok in H as ([l1|] & E & H).
  - apply step1_mv in E. apply step2_mv in H. destruct r as [l'|st t]; cbn in *; eapply mv_trans; eauto.
  - injection H as <-. cbn. apply mv_refl.
Qed.
Lemma loop_mv pb o fuel : forall l st t, loop pb o fuel l = Ok (st, t) -> mv (l_s l) t.
Proof.
  induction fuel as [|f IH]; intros l st t H; cbn [loop] in H; [injection H as _ <-; apply mv_refl|]. apply bind_ok in H as (r & E & H). apply iter_mv in E.
  destruct r as [l'|st' t']; cbn in E; [|injection H as _ <-; exact E]. apply IH in H. eapply mv_trans; [exact E|]. eapply mv_trans; [|exact H]. easymv.
Qed.
Lemma terminate_mv o st (s : solT) st' t : terminate o st s = Ok (st', t) -> t = s.
Proof. destruct st; cbn; try (intros H; injection H as _ <-; reflexivity); destruct (o_debug o); intros H; try discriminate; injection H as _ <-; reflexivity. Qed.
Lemma dual_solve_mv pb o s st t : dual_solve (@gi_init S) pb o s = Ok (st, t) -> mv s t.
Proof.
  unfold dual_solve. intros H. apply bind_ok in H as ([st0 v] & E & H). apply dual_init_mv in E.
  assert (K : mv v t). { destruct st0; try (apply terminate_mv in H as ->; apply mv_refl).
    apply bind_ok in H as (? & _ & H). apply bind_ok in H as (? & _ & H). apply bind_ok in H as (? & _ & H). apply bind_ok in H as ([st1 w] & E2 & H).
    apply loop_mv in E2. apply terminate_mv in H as ->. exact E2. }
  eapply mv_trans; eauto.
Qed.
Lemma multipliers_mv s u t : multipliers s = Ok (u, t) -> mv s t.
Proof.
  unfold multipliers. cbv zeta. intros H. apply bind_ok in H as (v & E & H). apply bind_ok in H as (? & _ & H). injection H as _ <-.
  destruct (s_exp s); [|injection E as <-; apply mv_refl]. stp; easymv.
Qed.

(** ** Agreement with the memory model of Alloc.v *)
Definition agree (s : solT) (o : obj) : Prop :=
  o_n o = s_n s /\ o_A o = s_A s /\ o_x o = w_size (s_x s) /\ o_z o = w_size (s_z s) /\ o_u o = w_size (s_u s) /\ o_r o = w_size (s_r s) /\
  o_d o = w_size (s_d s) /\ o_J o = w_size (s_J s) /\ o_R o = w_size (s_R s).
Lemma agree_new : agree (sol_new S) o_new.
Proof. repeat split. Qed.
Lemma size_resize junk (w : work S) n : w_size (w_resize junk w n) = ws_resize (w_size w) n.
Proof. unfold w_resize, ws_resize. destruct (w_size w <? n); reflexivity. Qed.
Lemma agree_resize grow junk s o n nc b : agree s o -> agree (resize junk s n nc b) (o_resize grow false o n nc b).
Proof.
  intros (a1 & a2 & a3 & a4 & a5 & a6 & a7 & a8 & a9). 
  assert (K : agree (resize_d junk s n) (o_resize_ false o n)).
  { unfold resize_d, o_resize_. rewrite a1. destruct (n =? s_n s); repeat split; cbn; rewrite ?size_resize; congruence. }
  unfold resize, o_resize. revert K. generalize (resize_d junk s n), (o_resize_ false o n). clear. intros s o K. unfold resize_p, o_resize_p. cbv zeta.
  assert (K1 : agree (if n =? s_n s then s else St (s_it s) n (s_A s) (s_f s) (w_resize junk (s_x s) n) (w_resize junk (s_z s) n) (s_u s) (s_r s) (s_exp s) (s_d s) (s_J s) (s_R s) (s_G s))
    (if n =? o_n o then o
           else Obj n (o_A o) (o_status o) (o_active o) (ws_resize (o_x o) n) (ws_resize (o_z o) n) (o_u o) (o_r o) (o_d o) (o_J o) (o_R o) (o_tmp o) (o_h o) (o_bact o)
                  (o_allocs o + ws_alloc (o_x o) n + ws_alloc (o_z o) n))).
  { destruct K as (a1 & a2 & a3 & a4 & a5 & a6 & a7 & a8 & a9). rewrite a1. destruct (n =? s_n s); repeat split; cbn; rewrite ?size_resize; congruence. }
  revert K1. match goal with |- agree ?x ?y -> _ => generalize x, y end. clear. intros s o (a1 & a2 & a3 & a4 & a5 & a6 & a7 & a8 & a9).
  set (m := nc + (if b then n else 0)). rewrite a2.
  destruct (m =? nbAll (s_A s)); cbn [set_r set_u s_A o_A]; rewrite ?a2; destruct ((nc =? a_nc (s_A s)) && _); repeat split; cbn; rewrite ?size_resize; congruence.
Qed.
Definition ev_of (o : as_op) : event :=
  match o with OpResize _ _ => Reset | OpReset => Reset | OpActivate i st => Activate i st | OpDeactivate k => Deactivate k end.
Definition not_resize (v : event) : Prop := match v with Resize _ _ _ => False | _ => True end.
Lemma path_events grow l : Forall small l -> forall o B, as_run (o_A o) l = Ok B ->
  exists o', o_run grow false o (map ev_of l) = Ok o' /\ o_A o' = B /\ o_n o' = o_n o /\ o_x o' = o_x o /\ o_z o' = o_z o /\ o_u o' = o_u o /\ o_r o' = o_r o /\ o_d o' = o_d o /\ o_J o' = o_J o /\ o_R o' = o_R o.
Proof.
  intros F. induction F as [|v l Hv F IH]; intros o B E; cbn [as_run map o_run] in *; [injection E as <-; exists o; repeat split|].
  destruct (as_step (o_A o) v) as [A|] eqn:EA; [|discriminate]. cbn [bind] in E.
  assert (X : exists o1, o_step grow false o (ev_of v) = Ok o1 /\ o_A o1 = A /\ o_n o1 = o_n o /\ o_x o1 = o_x o /\ o_z o1 = o_z o /\ o_u o1 = o_u o /\ o_r o1 = o_r o /\ o_d o1 = o_d o /\ o_J o1 = o_J o /\ o_R o1 = o_R o).
  { destruct v; cbn [small as_step ev_of o_step] in *; try contradiction; [injection EA as <-|rewrite EA; cbn [bind]|rewrite EA; cbn [bind]]; eexists; split; try reflexivity; cbn; repeat split; reflexivity. }
  destruct X as (o1 & E1 & E2 & R2). rewrite E1. cbn [bind]. rewrite <- E2 in E. destruct (IH o1 B E) as (o' & E' & R'). exists o'. split; [exact E'|]. 
  destruct R2 as (b1 & b2 & b3 & b4 & b5 & b6 & b7 & b8), R' as (c0 & c1 & c2 & c3 & c4 & c5 & c6 & c7 & c8). repeat split; congruence.
Qed.
Lemma ev_of_small l : Forall not_resize (map ev_of l).
Proof. induction l as [|[]]; cbn; constructor; cbn; auto. Qed.
Lemma mv_events grow s t o : mv s t -> agree s o -> exists l o', Forall not_resize l /\ o_run grow false o l = Ok o' /\ agree t o'.
Proof.
  intros (a1 & a2 & a3 & a4 & a5 & a6 & a7 & a8 & l & F & P) (b1 & b2 & b3 & b4 & b5 & b6 & b7 & b8 & b9). rewrite <- b2 in P.
  destruct (path_events grow l F o _ P) as (o' & E & c0 & c1 & c2 & c3 & c4 & c5 & c6 & c7 & c8). exists (map ev_of l), o'. split; [apply ev_of_small|]. split; [exact E|]. repeat split; congruence.
Qed.
Lemma o_run_app grow e l m : forall o o1, o_run grow e o l = Ok o1 -> o_run grow e o (l ++ m) = o_run grow e o1 m.
Proof.
  induction l as [|v l IH]; intros o o1 H; cbn [o_run app] in *; [injection H as ->; reflexivity|]. destruct (o_step grow e o v); [|discriminate]. cbn [bind] in *. eauto.
Qed.
End A.

(** The main loop of the dual solver does not look at the objective: neither at
    G and a, nor at the running objective value. *)
From Coq Require Import List Arith ZArith Lia Bool Reals Lra.
From Verif Require Import Base ActiveSet ActiveSetProofs Num Solver LinAlg QPSpec GIBase GIInv GIDual GIRun GIOpt.
Import ListNotations.
Local Open Scope R_scope.

(** ** Two problems with the same constraints *)
Record same_cstr (pb pb' : rproblem) : Prop := {
  sc_C : p_C pb = p_C pb'; sc_Cr : p_Crows pb = p_Crows pb'; sc_Cc : p_Ccols pb = p_Ccols pb';
  sc_bl : p_bl pb = p_bl pb'; sc_bu : p_bu pb = p_bu pb'; sc_xl : p_xl pb = p_xl pb'; sc_xu : p_xu pb = p_xu pb'
}.

Lemma ext_selc pb pb' A x k acc : same_cstr pb pb' -> sel_cstr pb A x k acc = sel_cstr pb' A x k acc.
Proof. intros [H1 H2 H3 H4 H5 H6 H7]. induction k as [|k IH]; auto. cbn [sel_cstr]. rewrite IH, H1, H2, H4, H5. reflexivity. Qed.
Lemma ext_selb pb pb' A x k acc : same_cstr pb pb' -> sel_bnd pb A x k acc = sel_bnd pb' A x k acc.
Proof. intros [H1 H2 H3 H4 H5 H6 H7]. induction k as [|k IH]; auto. cbn [sel_bnd]. rewrite IH, H6, H7. reflexivity. Qed.
Lemma ext_sel pb pb' s : same_cstr pb pb' -> selectViolated pb s = selectViolated pb' s.
Proof.
  intros H. unfold selectViolated. destruct (getV (s_x s) (s_n s)); auto. cbn [bind]. rewrite (ext_selc pb pb') by auto.
  destruct (sel_cstr pb' (s_A s) a (a_nc (s_A s)) (zero Rops, SC 0 INACTIVE)); auto. cbn [bind]. rewrite (ext_selb pb pb') by auto. reflexivity.
Qed.
Lemma ext_iter pb pb' o l : same_cstr pb pb' -> iter pb o l = iter pb' o l.
Proof.
  intros H. unfold iter, step1. rewrite (ext_sel pb pb') by auto. destruct H as [H1 H2 H3 H4 H5 H6 H7].
  destruct pb, pb'; simpl in *; subst. reflexivity.
Qed.
Lemma ext_loop pb pb' o f : same_cstr pb pb' -> forall l, loop pb o f l = loop pb' o f l.
Proof.
  intros H. induction f as [|f IH]; intros l; auto. cbn [loop]. rewrite (ext_iter pb pb') by auto.
  destruct (iter pb' o l) as [[l'|st s]|]; auto. cbn [bind]. apply IH.
Qed.

(** ** Another offset for the objective value *)
Definition rmap {A B} (f : A -> B) (m : res A) : res B := match m with Ok a => Ok (f a) | UB => UB end.
Definition addf (c : R) (s : rsol) : rsol := set_f s (s_f s + c).
Definition laddf (c : R) (l : rlst) : rlst := L (addf c (l_s l)) (l_skip l) (l_sc l).
Definition oaddf (c : R) (out : iter_out Rops) : iter_out Rops :=
  match out with Continue l => Continue (laddf c l) | Stop st s => Stop st (addf c s) end.

Ltac unb := repeat match goal with
  | |- context[bind ?m _] => destruct m; cbn [bind rmap]
  | |- context[guard ?b _] => destruct b; cbn [guard rmap]
  end; try reflexivity.

Lemma addf_step pb c s sc : computeStep pb (addf c s) sc = rmap (addf c) (computeStep pb s sc).
Proof. unfold computeStep. cbn [addf set_f s_n s_A s_d s_J s_R s_z s_r]. unb. Qed.
Lemma addf_add c s sc : addConstraint (addf c s) sc = rmap (addf c) (addConstraint s sc).
Proof.
  unfold addConstraint. cbn [addf set_f s_A]. destruct (as_activate _ _ _); cbn [bind rmap]; auto.
  unfold addConstraint_. cbn [addf set_f s_n s_A s_d s_J s_R s_z s_r set_A]. unb; destruct (add_loop _ _ _ _ _); unb.
Qed.
Lemma addf_remove c s l : removeConstraint (addf c s) l = rmap (addf c) (removeConstraint s l).
Proof.
  unfold removeConstraint. cbn [addf set_f s_A s_u set_u]. destruct (_ <=? _)%nat; cbn [guard rmap]; auto.
  destruct (as_deactivate _ _); cbn [bind rmap]; auto.
  unfold removeConstraint_. cbn [addf set_f s_n s_A s_d s_J s_R s_z s_r set_A set_u]. unb; destruct (rem_loop _ _ _ _ _); unb.
Qed.
Lemma addf_step2 pb o c l : step2 pb o (laddf c l) = rmap (oaddf c) (step2 pb o l).
Proof.
  unfold step2. cbn [laddf l_s l_sc l_skip]. rewrite addf_step. destruct (computeStep pb (l_s l) (l_sc l)) as [s|]; cbn [bind rmap]; auto.
  change (computeStepLength pb o (addf c s) (l_sc l)) with (computeStepLength pb o s (l_sc l)).
  destruct (computeStepLength pb o s (l_sc l)) as [((t1 & t2) & i)|]; cbn [bind rmap]; auto.
  change (s_n (addf c (l_s l))) with (s_n (l_s l)). change (s_A (addf c (l_s l))) with (s_A (l_s l)).
  destruct (leb Rops (o_bigBnd o) (if ltb Rops t2 t1 then t2 else t1)); cbn [rmap]; auto.
  set (t := if ltb Rops t2 t1 then t2 else t1). set (q := nact (s_A (l_s l))).
  change (w_buf (s_u (addf c s))) with (w_buf (s_u s)). change (w_buf (s_r (addf c s))) with (w_buf (s_r s)).
  change (w_buf (s_x (addf c s))) with (w_buf (s_x s)). change (w_buf (s_z (addf c s))) with (w_buf (s_z s)).
  change (s_u (addf c s)) with (s_u s). change (s_x (addf c s)) with (s_x s).
  destruct (leb Rops (o_bigBnd o) t2); cbn [rmap].
  - change (set_u (addf c s) (wset (s_u s) (dual_step q t (w_buf (s_u s)) (w_buf (s_r s)))))
      with (addf c (set_u s (wset (s_u s) (dual_step q t (w_buf (s_u s)) (w_buf (s_r s)))))).
    rewrite addf_remove. destruct (removeConstraint _ i) as [s1|]; cbn [bind rmap]; auto.
    cbn [addf set_f s_r s_u]. unb.
  - destruct (cn_dot pb (l_sc l) (s_n (l_s l)) (w_buf (s_z s))) as [nz|]; cbn [bind rmap]; auto.
    set (s2 := set_u (set_f (set_x s _) _) _).
    match goal with |- (if _ then (do s <- addConstraint ?S2 _; _) else _) = _ => assert (E2 : S2 = addf c s2) end.
    { unfold s2, addf, set_u, set_f, set_x. cbn. f_equal. rops. ring. }
    rewrite E2. clearbody s2. destruct (eqb Rops t t2).
    + rewrite addf_add. destruct (addConstraint s2 (l_sc l)); cbn [bind rmap]; auto.
    + rewrite addf_remove. destruct (removeConstraint s2 i) as [s1|]; cbn [bind rmap]; auto.
      cbn [addf set_f s_r s_u]. unb.
Qed.
Lemma addf_step1 pb c l : step1 pb (laddf c l) = rmap (option_map (laddf c)) (step1 pb l).
Proof.
  unfold step1. destruct l as [s skip sc]. cbn [laddf l_s l_sc l_skip]. destruct skip; [reflexivity|].
  change (selectViolated pb (addf c s)) with (selectViolated pb s).
  destruct (selectViolated pb s) as [sc'|]; cbn [bind rmap]; auto.
  cbn [addf set_f s_A s_r s_u].
  destruct (getV (s_r s) (nact (s_A s))); cbn [bind rmap]; [|destruct (sc_st sc'); reflexivity].
  destruct (getV (s_u s) (nact (s_A s) + 1)); cbn [bind rmap]; destruct (sc_st sc'); reflexivity.
Qed.
Lemma addf_iter pb o c l : iter pb o (laddf c l) = rmap (oaddf c) (iter pb o l).
Proof.
  unfold iter. rewrite addf_step1. destruct (step1 pb l) as [[l1|]|]; cbn [bind rmap option_map]; auto. apply addf_step2.
Qed.
Lemma addf_loop pb o c f : forall l, loop pb o f (laddf c l) = rmap (fun r => (fst r, addf c (snd r))) (loop pb o f l).
Proof.
  induction f as [|f IH]; intros l; cbn [loop]; auto. rewrite addf_iter.
  destruct (iter pb o l) as [[l'|st s]|]; cbn [bind rmap oaddf fst snd]; auto.
  rewrite <- IH. destruct l' as [s sk sc]. reflexivity.
Qed.

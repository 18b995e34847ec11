(** The values that a computation started from zeros can produce: for exact reals 0; for IEEE doubles +0, -0 and NaN. *)
From Coq Require Import List Arith Bool PrimFloat FloatOps FloatAxioms SpecFloat ZArith Reals Lra.
From Verif Require Import Base ActiveSet Num Solver LinAlg GIBase GIInv GIOpt GISafe GIFinal RunFloat FloatLaws BlockGen.

Definition zn (x : spec_float) : Prop := match x with S754_zero _ | S754_nan => True | _ => False end.
Definition fnul (x : float) : Prop := zn (Prim2SF x).
Lemma float_null : null_ops Fops fnul.
Proof.
  split; unfold fnul; cbn -[Prim2SF PrimFloat.add PrimFloat.sub PrimFloat.mul PrimFloat.div PrimFloat.sqrt PrimFloat.ltb].
  - vm_compute. exact I.
  - intros a b. rewrite add_spec. unfold SF64add. destruct (Prim2SF a) as [s|s| |s m e], (Prim2SF b) as [s'|s'| |s' m' e']; try contradiction; intros _ _; try exact I; destruct s, s'; exact I.
  - intros a b. rewrite sub_spec. unfold SF64sub. destruct (Prim2SF a) as [s|s| |s m e], (Prim2SF b) as [s'|s'| |s' m' e']; try contradiction; intros _ _; try exact I; destruct s, s'; exact I.
  - intros a b. rewrite mul_spec. unfold SF64mul. destruct (Prim2SF a) as [s|s| |s m e], (Prim2SF b) as [s'|s'| |s' m' e']; try contradiction; intros _; exact I.
  - intros a b. rewrite mul_spec. unfold SF64mul. destruct (Prim2SF a) as [s|s| |s m e], (Prim2SF b) as [s'|s'| |s' m' e']; try contradiction; intros _; exact I.
  - intros a b. rewrite div_spec. unfold SF64div. destruct (Prim2SF a) as [s|s| |s m e], (Prim2SF b) as [s'|s'| |s' m' e']; try contradiction; intros _; exact I.
  - intros a. rewrite FloatAxioms.ltb_spec, sqrt_spec. unfold SF64sqrt. destruct (Prim2SF a) as [s|s| |s m e]; try contradiction; intros _; vm_compute; auto.
Qed.
Local Open Scope R_scope.
Lemma real_null : null_ops Rops (fun x => x = 0).
Proof.
  split; [reflexivity|intros a b -> ->|intros a b -> ->|intros a b ->|intros a b ->|intros a b ->|intros a ->]; rops.
  - apply Rplus_0_l.
  - apply Rminus_0_r.
  - apply Rmult_0_l.
  - apply Rmult_0_r.
  - apply Rmult_0_l.
  - apply Rltb_false. rewrite sqrt_0. pose proof eps_gt0. unfold eps in *. lra.
Qed.

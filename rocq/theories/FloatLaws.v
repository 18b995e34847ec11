(** IEEE-754 doubles (Coq primitive floats, specified by the standard
    library's FloatAxioms) satisfy the three laws used for memory safety. *)
From Coq Require Import List Arith Bool PrimFloat FloatOps FloatAxioms SpecFloat ZArith.
From Verif Require Import Base ActiveSet Num Solver GISafe RunFloat.

Lemma float_ltb_self a b : PrimFloat.ltb a b = true -> PrimFloat.eqb a a = true.
Proof.
  rewrite FloatAxioms.ltb_spec, FloatAxioms.eqb_spec.
  unfold SFltb, SFeqb, SFcompare. destruct (Prim2SF a) as [s|s| |s m e], (Prim2SF b) as [s'|s'| |s' m' e'];
    try discriminate; auto; intros _; try (destruct s; auto);
    rewrite ?Z.compare_refl, ?Pos.compare_cont_refl; auto.
Qed.
Lemma float_sum_zero key n : @sumn Fops key n (fun _ => PrimFloat.mul 0 0)%float = 0%float.
Proof. apply (sumn_in Fops (fun x => x = 0%float)); [reflexivity| |reflexivity]. intros x y -> ->. reflexivity. Qed.
Lemma float_safe : safe_ops Fops.
Proof.
  split.
  - exact float_ltb_self.
  - intros key n. cbn [ltb eps14 sqrt_ mul zero Fops]. rewrite float_sum_zero. vm_compute. reflexivity.
Qed.

(** IEEE doubles ([Dops]) satisfy the weak conditions of the definedness
    theorems (C37, C46, C62, C63). *)
From Coq Require Import List Arith ZArith Lia Bool Reals Lra.
From Flocq Require Import IEEE754.BinarySingleNaN.
From Verif Require Import Base Num GISafe BlockGen DoubleOps.
Import ListNotations.

Lemma double_ltb_self (a b : double) : Bltb a b = true -> Beqb a a = true.
Proof.
  destruct a as [[]|[]| |[] m e H], b as [[]|[]| |[] m' e' H']; cbn; try discriminate; auto; intros _;
    unfold Beqb, SpecFloat.SFeqb, SpecFloat.SFcompare; cbn; rewrite ?Z.compare_refl, ?Pos.compare_cont_refl; auto.
Qed.
Lemma double_sum_zero w key n : @sumn (Dw w) key n (fun _ => Bmult mode_NE d0 d0) = d0.
Proof. apply (sumn_in (Dw w) (fun x => x = d0)); [reflexivity| |reflexivity]. intros x y -> ->. reflexivity. Qed.
Lemma double_safe w : safe_ops (Dw w).
Proof.
  split.
  - exact double_ltb_self.
  - intros key n. change (Bltb d1em14 (Bsqrt mode_NE (@sumn (Dw w) key n (fun _ => Bmult mode_NE d0 d0))) = false). rewrite double_sum_zero. reflexivity.
Qed.
Definition dnul (x : double) : Prop := match x with B754_zero _ | B754_nan => True | _ => False end.
Lemma double_null w : null_ops (Dw w) dnul.
Proof.
  split; unfold dnul; cbn [Dw carrier zero add sub mul div sqrt_ ltb eps14].
  - exact I.
  - intros a b. destruct a as [[]|[]| |[] m e H], b as [[]|[]| |[] m' e' H']; try contradiction; intros _ _; exact I.
  - intros a b. destruct a as [[]|[]| |[] m e H], b as [[]|[]| |[] m' e' H']; try contradiction; intros _ _; exact I.
  - intros a b. destruct a as [[]|[]| |[] m e H], b as [[]|[]| |[] m' e' H']; try contradiction; intros _; exact I.
  - intros a b. destruct a as [[]|[]| |[] m e H], b as [[]|[]| |[] m' e' H']; try contradiction; intros _; exact I.
  - intros a b. destruct a as [[]|[]| |[] m e H], b as [[]|[]| |[] m' e' H']; try contradiction; intros _; exact I.
  - intros a. destruct a as [[]|[]| |[] m e H]; try contradiction; intros _; reflexivity.
Qed.

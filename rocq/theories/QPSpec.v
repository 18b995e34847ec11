(** What a convex QP is, and what solving it means.  Independent of the
    algorithm: only the problem data of Solver.v ([problem]) is used. *)
From Coq Require Import List Arith ZArith Lia Bool Reals Lra.
From Verif Require Import Base Num Solver LinAlg.
Import ListNotations.
Local Open Scope R_scope.

Notation rproblem := (problem Rops).

(** Dimensions *)
Definition nv (pb : rproblem) : nat := p_Grows pb.          (* variables *)
Definition nc (pb : rproblem) : nat := p_Ccols pb.          (* general constraints *)
Definition nb (pb : rproblem) : nat := p_xlsize pb.         (* bounds: nv or 0 *)
Definition ncb (pb : rproblem) : nat := (nc pb + nb pb)%nat.

(** The Hessian: the symmetric matrix given by the lower triangle of G. *)
Definition hess (pb : rproblem) : rmat := gsym (p_G pb).

(** 1/2 x'Gx + a'x *)
Definition objective (pb : rproblem) (x : rvec) : R :=
  / 2 * quad (nv pb) (hess pb) x + rdot (nv pb) (p_a pb) x.

(** Gradient of the objective *)
Definition gradient (pb : rproblem) (x : rvec) (i : nat) : R :=
  rsum (nv pb) (fun j => hess pb i j * x j) + p_a pb i.

Definition above_lo (l : option R) (v : R) : Prop := match l with Some l => l <= v | None => True end.
Definition below_up (u : option R) (v : R) : Prop := match u with Some u => v <= u | None => True end.

(** [bl <= C'x <= bu] and [xl <= x <= xu] *)
Definition feasible (pb : rproblem) (x : rvec) : Prop :=
  (forall j, (j < nc pb)%nat ->
     above_lo (p_bl pb j) (rdot (nv pb) (fun i => p_C pb i j) x) /\
     below_up (p_bu pb j) (rdot (nv pb) (fun i => p_C pb i j) x)) /\
  (forall i, (i < nb pb)%nat -> above_lo (p_xl pb i) (x i) /\ below_up (p_xu pb i) (x i)).

(** KKT conditions with the sign convention of the public API: [lam] has the
    multipliers of the general constraints first, then those of the bounds;
    positive at an upper bound, negative at a lower bound. *)
Record kkt (pb : rproblem) (x : rvec) (lam : nat -> R) : Prop := {
  kkt_stat : forall i, (i < nv pb)%nat ->
     gradient pb x i + rsum (nc pb) (fun j => p_C pb i j * lam j)
       + (if (i <? nb pb)%nat then lam (nc pb + i)%nat else 0) = 0;
  kkt_feas : feasible pb x;
  kkt_comp_c : forall j, (j < nc pb)%nat ->
     (0 < lam j -> p_bu pb j = Some (rdot (nv pb) (fun i => p_C pb i j) x)) /\
     (lam j < 0 -> p_bl pb j = Some (rdot (nv pb) (fun i => p_C pb i j) x));
  kkt_comp_b : forall i, (i < nb pb)%nat ->
     (0 < lam (nc pb + i)%nat -> p_xu pb i = Some (x i)) /\
     (lam (nc pb + i)%nat < 0 -> p_xl pb i = Some (x i))
}.

(** [x] is the unique global minimiser. *)
Definition unique_minimiser (pb : rproblem) (x : rvec) : Prop :=
  feasible pb x /\
  forall y, feasible pb y ->
    objective pb x <= objective pb y /\
    (objective pb y <= objective pb x -> forall i, (i < nv pb)%nat -> y i = x i).

Definition infeasible (pb : rproblem) : Prop := forall y, ~ feasible pb y.

(** A constraint (index in [0, nc) for general ones, [nc, nc+nb) for bounds) is
    an equality when its two bounds coincide. *)
Definition clo (pb : rproblem) (i : nat) : option R :=
  if (i <? nc pb)%nat then p_bl pb i else p_xl pb (i - nc pb)%nat.
Definition cup (pb : rproblem) (i : nat) : option R :=
  if (i <? nc pb)%nat then p_bu pb i else p_xu pb (i - nc pb)%nat.
Definition is_equality (pb : rproblem) (i : nat) : Prop := exists b, clo pb i = Some b /\ cup pb i = Some b.

(** The (unsigned) normal of constraint [i] *)
Definition cvec (pb : rproblem) (i : nat) : rvec :=
  if (i <? nc pb)%nat then fun a => p_C pb a i
  else fun a => if (a =? i - nc pb)%nat then 1 else 0.

(** ** Uniform view of feasibility *)
Lemma dot_delta n k (x : rvec) : (k < n)%nat -> rdot n (fun a => if (a =? k)%nat then 1 else 0) x = x k.
Proof.
  intros H. rewrite dot_def.
  rewrite (sum_ext n _ (fun a => if (a =? k)%nat then x a else 0)).
  - apply sum_delta; auto.
  - intros a _. destruct (a =? k)%nat; lra.
Qed.

Lemma feasible_iff pb x : (nb pb <= nv pb)%nat ->
  feasible pb x <-> (forall i, (i < ncb pb)%nat ->
     above_lo (clo pb i) (rdot (nv pb) (cvec pb i) x) /\ below_up (cup pb i) (rdot (nv pb) (cvec pb i) x)).
Proof.
  intros Hb. unfold feasible, ncb, clo, cup, cvec. split.
  - intros [Hc Hx] i Hi. destruct (Nat.ltb_spec i (nc pb)).
    + apply Hc; auto.
    + rewrite dot_delta by lia. apply Hx. lia.
  - intros H. split.
    + intros j Hj. specialize (H j ltac:(lia)). destruct (Nat.ltb_spec j (nc pb)); [auto|lia].
    + intros i Hi. specialize (H (nc pb + i)%nat ltac:(lia)).
      destruct (Nat.ltb_spec (nc pb + i) (nc pb)); [lia|].
      replace (nc pb + i - nc pb)%nat with i in H by lia. rewrite dot_delta in H by lia. auto.
Qed.

(** ** Convexity: KKT points are unique minimisers *)
Lemma quad_expand n G (x e : rvec) : (forall i j, G i j = G j i) ->
  quad n G (fun i => x i + e i) = quad n G x + 2 * rsum n (fun i => e i * rsum n (fun j => G i j * x j)) + quad n G e.
Proof.
  intros HS. unfold quad.
  rewrite (sum_ext n _ (fun i => x i * rsum n (fun j => G i j * x j) + x i * rsum n (fun j => G i j * e j)
             + e i * rsum n (fun j => G i j * x j) + e i * rsum n (fun j => G i j * e j))).
  2:{ intros i Hi. rewrite (sum_ext n _ (fun j => G i j * x j + G i j * e j)) by (intros; ring).
      rewrite sum_plus. ring. }
  rewrite !sum_plus.
  assert (E : rsum n (fun i => x i * rsum n (fun j => G i j * e j)) = rsum n (fun i => e i * rsum n (fun j => G i j * x j))).
  { rewrite (sum_ext n _ (fun i => rsum n (fun j => x i * (G i j * e j)))) by (intros; rewrite sum_scal; auto).
    rewrite sum_swap. apply sum_ext. intros j Hj. rewrite <- sum_scal. apply sum_ext. intros i Hi.
    rewrite (HS i j). ring. }
  rewrite E. ring.
Qed.

Lemma quad_ext n G x y : (forall i, (i < n)%nat -> x i = y i) -> quad n G x = quad n G y.
Proof.
  intros H. apply sum_ext. intros i Hi. rewrite H by auto. f_equal. apply sum_ext. intros j Hj. rewrite H by auto. auto.
Qed.

Lemma objective_ext pb x y : (forall i, (i < nv pb)%nat -> x i = y i) -> objective pb x = objective pb y.
Proof.
  intros H. unfold objective. rewrite (quad_ext _ _ x y H). f_equal. apply dot_ext; auto.
Qed.

Lemma objective_expand pb x e :
  objective pb (fun i => x i + e i) = objective pb x + rsum (nv pb) (fun i => e i * gradient pb x i)
     + / 2 * quad (nv pb) (hess pb) e.
Proof.
  unfold objective, gradient. rewrite quad_expand by apply gsym_sym.
  rewrite dot_def, (sum_ext (nv pb) (fun i => p_a pb i * (x i + e i)) (fun i => p_a pb i * x i + e i * p_a pb i))
    by (intros; ring).
  rewrite sum_plus, dot_def.
  rewrite (sum_ext (nv pb) (fun i => e i * (rsum (nv pb) (fun j => hess pb i j * x j) + p_a pb i))
     (fun i => e i * rsum (nv pb) (fun j => hess pb i j * x j) + e i * p_a pb i)) by (intros; ring).
  rewrite sum_plus. field.
Qed.

(** The first-order condition of convex programming *)
Lemma first_order pb x y :
  rsum (nv pb) (fun i => (y i - x i) * gradient pb x i) >= 0 -> posdef (nv pb) (hess pb) ->
  objective pb x <= objective pb y /\
  (objective pb y <= objective pb x -> forall i, (i < nv pb)%nat -> y i = x i).
Proof.
  intros Hg HP.
  set (e := fun i => y i - x i).
  assert (E : objective pb y = objective pb x + rsum (nv pb) (fun i => e i * gradient pb x i)
     + / 2 * quad (nv pb) (hess pb) e).
  { rewrite <- objective_expand. apply objective_ext. intros i Hi. unfold e. lra. }
  change (rsum (nv pb) (fun i => e i * gradient pb x i) >= 0) in Hg.
  assert (Hz : (forall i, (i < nv pb)%nat -> e i = 0) \/ 0 < quad (nv pb) (hess pb) e).
  { assert (D : (forall i, (i < nv pb)%nat -> e i = 0) \/ (exists i, (i < nv pb)%nat /\ e i <> 0)).
    { clearbody e. clear. induction (nv pb) as [|n IH]; [left; intros; lia|].
      destruct IH as [IH|(i & Hi & He)]; [|right; exists i; split; auto].
      destruct (Req_EM_T (e n) 0) as [E|E].
      - left. intros i Hi. destruct (Nat.eq_dec i n) as [->|]; auto. apply IH; lia.
      - right. exists n. split; auto. }
    destruct D as [D|D]; [left; auto|right; apply HP; auto]. }
  destruct Hz as [Hz|Hz].
  - assert (Hy : objective pb y = objective pb x).
    { apply objective_ext. intros i Hi. specialize (Hz i Hi). unfold e in Hz. lra. }
    split; [lra|]. intros _ i Hi. specialize (Hz i Hi). unfold e in Hz. lra.
  - split; [lra|]. intros; lra.
Qed.

Lemma kkt_unique_minimiser pb x lam : (nb pb <= nv pb)%nat ->
  kkt pb x lam -> posdef (nv pb) (hess pb) -> unique_minimiser pb x.
Proof.
  intros Hb [KS KF KC KB] HP. split; auto. intros y Hy. apply first_order; auto.
  destruct Hy as [Hy1 Hy2].
  set (n := nv pb) in *.
  assert (E : rsum n (fun i => (y i - x i) * gradient pb x i)
     = rsum (nc pb) (fun j => - lam j * (rdot n (fun i => p_C pb i j) y - rdot n (fun i => p_C pb i j) x))
       + rsum (nb pb) (fun i => - lam (nc pb + i)%nat * (y i - x i))).
  { rewrite (sum_ext n _ (fun i => rsum (nc pb) (fun j => - lam j * (p_C pb i j * y i - p_C pb i j * x i))
       + (if (i <? nb pb)%nat then - lam (nc pb + i)%nat * (y i - x i) else 0))).
    - rewrite sum_plus, sum_swap. f_equal.
      + apply sum_ext. intros j Hj. rewrite sum_scal. f_equal. rewrite sum_minus. reflexivity.
      + replace n with (nb pb + (n - nb pb))%nat by lia. rewrite sum_app.
        rewrite (sum_zero (n - nb pb)).
        * rewrite (sum_ext (nb pb) _ (fun i => - lam (nc pb + i)%nat * (y i - x i))); [lra|].
          intros i Hi. destruct (Nat.ltb_spec i (nb pb)); [auto|lia].
        * intros i Hi. destruct (Nat.ltb_spec (nb pb + i) (nb pb)); [lia|auto].
    - intros i Hi.
      replace (gradient pb x i) with (- rsum (nc pb) (fun j => p_C pb i j * lam j)
        - (if (i <? nb pb)%nat then lam (nc pb + i)%nat else 0)) by (specialize (KS i Hi); lra).
      rewrite (sum_ext (nc pb) (fun j => - lam j * (p_C pb i j * y i - p_C pb i j * x i))
         (fun j => - (y i - x i) * (p_C pb i j * lam j))) by (intros; ring).
      rewrite sum_scal. destruct (i <? nb pb)%nat; ring. }
  rewrite E.
  apply Rle_ge, Rplus_le_le_0_compat; apply sum_nonneg.
  - intros j Hj. destruct (KC j Hj) as [K1 K2]. destruct (Hy1 j Hj) as [L1 L2].
    destruct (Rlt_le_dec 0 (lam j)) as [Hl|Hl].
    + rewrite (K1 Hl) in L2. simpl in L2. nra.
    + destruct (Rle_lt_or_eq_dec _ _ Hl) as [Hl'|Hl'].
      * rewrite (K2 Hl') in L1. simpl in L1. nra.
      * rewrite Hl'. lra.
  - intros i Hi. destruct (KB i Hi) as [K1 K2]. destruct (Hy2 i Hi) as [L1 L2].
    destruct (Rlt_le_dec 0 (lam (nc pb + i)%nat)) as [Hl|Hl].
    + rewrite (K1 Hl) in L2. simpl in L2. nra.
    + destruct (Rle_lt_or_eq_dec _ _ Hl) as [Hl'|Hl'].
      * rewrite (K2 Hl') in L1. simpl in L1. nra.
      * rewrite Hl'. lra.
Qed.

(** Scalars, vectors, matrices and workspaces, generic over the scalar
    operations.  [Rops] (exact reals) is used by the theorems, [Fops]
    (IEEE binary64, Coq primitive floats) only to run the model. *)
From Coq Require Import List Arith ZArith Lia Bool Reals Lra Permutation.
From Verif Require Import Base.
Import ListNotations.

(** ** The order in which Eigen adds up the terms of a sum.
    Eigen's reductions, matrix-vector and matrix-matrix kernels add the terms in
    an order that depends on the kernel, the sizes, the vectorisation and the
    alignment.  An order is a binary tree whose leaves are the terms. *)
Inductive stree := SZero | SLeaf (i : nat) | SAdd (l r : stree).
Fixpoint leaves (t : stree) : list nat :=
  match t with SZero => [] | SLeaf i => [i] | SAdd l r => leaves l ++ leaves r end.
Fixpoint depth (t : stree) : nat :=
  match t with SZero => 0 | SLeaf _ => 0 | SAdd l r => S (Nat.max (depth l) (depth r)) end.
(** left to right, from zero *)
Fixpoint comb (n : nat) : stree := match n with O => SZero | S k => SAdd (comb k) (SLeaf k) end.
(** a tree that adds each of the terms 0, ..., n-1 once *)
Definition tree_ok (n : nat) (t : stree) : Prop := Permutation (leaves t) (seq 0 n) /\ depth t <= n.
(** [a -= sum]: partial sums subtracted one after the other (panels of Eigen's
    matrix products and triangular solves), together covering each term once *)
Definition chain_ok (n : nat) (l : list stree) : Prop :=
  Permutation (flat_map leaves l) (seq 0 n) /\ length l <= n + 1 /\ forall m t, nth_error l m = Some t -> depth t + m <= n.
(** An order for each sum of the program.  The first argument tells which sum
    (the place in the code, the row...), so that two sums of the same length may
    be added up differently. *)
Record sumorder := SumOrder {
  so_tree : list nat -> nat -> stree; so_sub : list nat -> nat -> list stree;
  so_tree_ok : forall key n, tree_ok n (so_tree key n);
  so_sub_ok : forall key n, chain_ok n (so_sub key n) }.
Lemma comb_leaves n : leaves (comb n) = seq 0 n.
Proof. induction n as [|n IH]; [reflexivity|]. cbn [comb leaves]. rewrite IH, seq_S. reflexivity. Qed.
Lemma comb_depth n : depth (comb n) = n.
Proof. induction n as [|n IH]; [reflexivity|]. cbn [comb depth]. rewrite IH. lia. Qed.
Definition left_order : sumorder.
Proof.
  refine (SumOrder (fun _ n => comb n) (fun _ n => [comb n]) _ _); intros _ n.
  - split; [rewrite comb_leaves; apply Permutation_refl|rewrite comb_depth; lia].
  - split; [cbn [flat_map]; rewrite app_nil_r, comb_leaves; apply Permutation_refl|]. split; [cbn; lia|].
    intros [|[|m]] t H; cbn in H; try discriminate H. injection H as <-. rewrite comb_depth. lia.
Defined.

(** The operations of [double] used by the code. *)
Record ops := Ops {
  carrier : Type;
  zero : carrier; one : carrier;
  add : carrier -> carrier -> carrier;
  sub : carrier -> carrier -> carrier;
  mul : carrier -> carrier -> carrier;
  div : carrier -> carrier -> carrier;
  opp : carrier -> carrier;
  sqrt_ : carrier -> carrier;
  ltb : carrier -> carrier -> bool;
  leb : carrier -> carrier -> bool;
  eqb : carrier -> carrier -> bool;
  eps14 : carrier;           (* the literal 1e-14 *)
  order : sumorder           (* the order of summation *)
}.

Declare Scope ops_scope.
Delimit Scope ops_scope with ops.

Section Generic.
Variable S : ops.
Notation T := (carrier S).
Notation "x + y" := (add S x y) : ops_scope.
Notation "x - y" := (sub S x y) : ops_scope.
Notation "x * y" := (mul S x y) : ops_scope.
Notation "x / y" := (div S x y) : ops_scope.
Notation "- x" := (opp S x) : ops_scope.
Notation "0" := (zero S) : ops_scope.
Notation "1" := (one S) : ops_scope.

Definition vec := nat -> T.
Definition mat := nat -> nat -> T.

(** [sum_{i<n} f i] (Eigen reductions and products), in the order of the arithmetic *)
Fixpoint seval (f : nat -> T) (t : stree) : T :=
  match t with SZero => 0 | SLeaf i => f i | SAdd l r => seval f l + seval f r end%ops.
Definition sumn (key : list nat) (n : nat) (f : nat -> T) : T := seval f (so_tree (order S) key n).
(** [a - sum_{i<n} f i] *)
Definition subn (key : list nat) (n : nat) (a : T) (f : nat -> T) : T :=
  fold_left (fun x t => x - seval f t)%ops (so_sub (order S) key n) a.

Definition dot (key : list nat) (n : nat) (u v : vec) : T := sumn key n (fun i => u i * v i)%ops.

(** 2 and 1/2 (the literal [.5]) *)
Definition half : T := (1 / (1 + 1))%ops.

(** std::abs *)
Definition abs_ (x : T) : T := if ltb S x (zero S) then (- x)%ops else x.

(** Memoisation: extensionally the identity (lemmas [vm_id], [mm_id]); it only
    makes the model executable in reasonable time. *)
Definition vm (n : nat) (v : vec) : vec :=
  let l := map v (seq 0 n) in
  fun i => match nth_error l i with Some x => x | None => v i end.
Definition mm (n : nat) (M : mat) : mat :=
  let l := map (fun j => map (fun i => M i j) (seq 0 n)) (seq 0 n) in
  fun i j => match nth_error l j with
             | Some c => match nth_error c i with Some x => x | None => M i j end
             | None => M i j
             end.

(** One-element assignment *)
Definition upd (v : vec) (i : nat) (a : T) : vec := fun j => if j =? i then a else v j.
Definition mupd (M : mat) (i j : nat) (a : T) : mat :=
  fun i' j' => if (i' =? i) && (j' =? j) then a else M i' j'.

(** Assignment of the first [n] elements of a vector *)
Definition vhead (n : nat) (new old : vec) : vec := fun i => if i <? n then new i else old i.

(** ** Workspaces (include/jrl-qp/internal/Workspace.h).
    A buffer of [w_size] scalars; [w_buf] outside [0, w_size) is meaningless and
    never read by the code when the size asserts hold. *)
Record work := W { w_size : nat; w_buf : vec }.

(** Workspace.h:42-48, with [fit = false]; Eigen's resize leaves the new buffer
    uninitialised: its contents are the arbitrary [junk]. *)
Definition w_resize (junk : vec) (w : work) (size : nat) : work :=
  if w_size w <? size then W size junk else w.
(** Workspace.h:42-48 in full *)
Definition w_resize_fit (junk : vec) (w : work) (size : nat) (fit : bool) : work :=
  if (w_size w <? size) || ((size <? w_size w) && fit) then W size junk else w.

(** Workspace.h:92-106: the assert of [asVector] *)
Definition vec_fits (w : work) (n : nat) : bool := n <=? w_size w.
(** Workspace.h:120-139: the asserts of [asMatrix] *)
Definition mat_fits (w : work) (r c ld : nat) : bool := (ld * c <=? w_size w) && (r <=? ld).

(** Column-major view with leading dimension [ld] *)
Definition view (ld : nat) (b : vec) : mat := fun i j => b (i + ld * j).
(** Write back the first [c] columns (of height [ld]) of a view *)
Definition unview (ld c : nat) (M : mat) (b : vec) : vec :=
  vm (ld * c) (fun k => if k <? ld * c then M (k mod ld) (k / ld) else b k).

(** ** Dense kernels (Eigen) *)

(** Eigen::internal::llt_inplace<double,Lower>::unblocked, called by
    src/GoldfarbIdnaniSolver.cpp:58 through [blocked] (which computes the same
    factor block by block).  Returns [None] on success (Eigen: -1) or the index
    of the failing pivot. Only the lower triangle is read or written. *)
Fixpoint llt_loop (n k cnt : nat) (G : mat) : option nat * mat :=
  match cnt with
  | O => (None, G)
  | Datatypes.S c =>
      let x := subn [1; n; k; k]%nat k (G k k) (fun j => G k j * G k j)%ops in
      if leb S x (zero S) then (Some k, G)
      else
        let p := sqrt_ S x in
        let G' := mm n (fun i j =>
                    if (j =? k) && (i =? k) then p
                    else if (j =? k) && (k <? i) && (i <? n)
                         then (subn [1; n; k; i]%nat k (G i k) (fun t => G i t * G k t) / p)%ops
                         else G i j) in
        llt_loop n (Datatypes.S k) c G'
  end.
Definition llt (n : nat) (G : mat) : option nat * mat := llt_loop n 0 n G.

(** Forward substitution L x = b, in place ([triangularView<Lower>().solve]). *)
Fixpoint fwd (k : nat) (L : mat) (b : vec) : vec :=
  match k with
  | O => b
  | Datatypes.S i =>
      let x := fwd i L b in
      upd x i (subn [2; i]%nat i (b i) (fun j => L i j * x j) / L i i)%ops
  end.

(** Backward substitution U x = b on the leading [n] block, rows [n-1] down to
    [n-k], in place ([triangularView<Upper>().solve]). *)
Fixpoint bwd (n k : nat) (U : mat) (b : vec) : vec :=
  match k with
  | O => b
  | Datatypes.S k' =>
      let x := bwd n k' U b in
      let i := n - Datatypes.S k' in
      upd x i (subn [3; n; i]%nat k' (b i) (fun t => U i (i + 1 + t)%nat * x (i + 1 + t)%nat) / U i i)%ops
  end.

Definition tr (M : mat) : mat := fun i j => M j i.
Definition idm : mat := fun i j => if i =? j then one S else zero S.

(** ** Givens rotations (Eigen::JacobiRotation<double>) *)
Record givens := Gv { gc : T; gs : T }.

(** JacobiRotation::makeGivens(p,q,&r), real case. *)
Definition makeGivens (p q : T) : givens * T :=
  if eqb S q (zero S) then
    (Gv (if ltb S p (zero S) then (- (1))%ops else one S) (zero S), abs_ p)
  else if eqb S p (zero S) then
    (Gv (zero S) (if ltb S q (zero S) then one S else (- (1))%ops), abs_ q)
  else if ltb S (abs_ q) (abs_ p) then
    let t := (q / p)%ops in
    let u0 := sqrt_ S (1 + t * t)%ops in
    let u := if ltb S p (zero S) then (- u0)%ops else u0 in
    let c := (1 / u)%ops in
    (Gv c (- t * c)%ops, (p * u)%ops)
  else
    let t := (p / q)%ops in
    let u0 := sqrt_ S (1 + t * t)%ops in
    let u := if ltb S q (zero S) then (- u0)%ops else u0 in
    let s := (- (1) / u)%ops in
    (Gv (- t * s)%ops s, (q * u)%ops).

(** MatrixBase::applyOnTheRight(i, i+1, g):
    col_i' = c col_i - s col_{i+1}, col_{i+1}' = s col_i + c col_{i+1}. *)
Definition rot_cols (M : mat) (i : nat) (g : givens) : mat :=
  fun a b =>
    if b =? i then (gc g * M a i - gs g * M a (Datatypes.S i))%ops
    else if b =? Datatypes.S i then (gs g * M a i + gc g * M a (Datatypes.S i))%ops
    else M a b.

End Generic.

Arguments Gv {S}.
Arguments gc {S}. Arguments gs {S}.
Arguments W {S}.
Arguments w_size {S}. Arguments w_buf {S}.
Arguments vec_fits {S}. Arguments mat_fits {S}.
Arguments w_resize {S}. Arguments w_resize_fit {S}.
Arguments seval {S}. Arguments sumn {S}. Arguments subn {S}. Arguments dot {S}.
Arguments vm {S}. Arguments mm {S}. Arguments upd {S}. Arguments mupd {S}. Arguments vhead {S}.
Arguments view {S}. Arguments unview {S}.
Arguments llt_loop {S}. Arguments llt {S}. Arguments fwd {S}. Arguments bwd {S}.
Arguments tr {S}. Arguments rot_cols {S}. Arguments makeGivens {S}. Arguments abs_ {S}.

(** ** A sum only looks at its own terms *)
Lemma so_tree_lt (w : sumorder) key n i : In i (leaves (so_tree w key n)) -> i < n.
Proof. intros H. apply (Permutation_in _ (proj1 (so_tree_ok w key n))) in H. apply in_seq in H. lia. Qed.
Lemma so_sub_lt (w : sumorder) key n t i : In t (so_sub w key n) -> In i (leaves t) -> i < n.
Proof.
  intros H H'. assert (Hi : In i (flat_map leaves (so_sub w key n))) by (apply in_flat_map; exists t; auto).
  apply (Permutation_in _ (proj1 (so_sub_ok w key n))) in Hi. apply in_seq in Hi. lia.
Qed.
Lemma seval_ext (S : ops) (f g : nat -> carrier S) t : (forall i, In i (leaves t) -> f i = g i) -> seval f t = seval g t.
Proof.
  induction t as [|i|l IHl r IHr]; cbn [seval leaves]; intros H; [reflexivity|apply H; left; reflexivity|].
  rewrite IHl, IHr; [reflexivity| |]; intros i Hi; apply H, in_or_app; auto.
Qed.
Lemma sumn_ext (S : ops) key n (f g : nat -> carrier S) : (forall i, i < n -> f i = g i) -> sumn key n f = sumn key n g.
Proof. intros H. apply seval_ext. intros i Hi. apply H, (so_tree_lt (order S) key), Hi. Qed.
Lemma subn_ext (S : ops) key n (a : carrier S) (f g : nat -> carrier S) : (forall i, i < n -> f i = g i) -> subn key n a f = subn key n a g.
Proof.
  intros H. unfold subn.
  assert (E : forall t, In t (so_sub (order S) key n) -> seval f t = seval g t).
  { intros t Ht. apply seval_ext. intros i Hi. apply H, (so_sub_lt (order S) key n t i Ht Hi). }
  revert a E. induction (so_sub (order S) key n) as [|t l IH]; intros a E; [reflexivity|]. cbn [fold_left].
  rewrite (E t) by (left; reflexivity). apply IH. intros t' Ht'. apply E. right. exact Ht'.
Qed.
Lemma dot_ext (S : ops) key n (u v u' v' : nat -> carrier S) : (forall i, i < n -> u i = u' i /\ v i = v' i) -> dot key n u v = dot key n u' v'.
Proof. intros H. apply sumn_ext. intros i Hi. destruct (H i Hi) as [-> ->]. reflexivity. Qed.
Lemma sumn_O (S : ops) key (f : nat -> carrier S) : sumn key 0 f = zero S.
Proof.
  unfold sumn. destruct (so_tree_ok (order S) key 0) as [H D]. destruct (so_tree (order S) key 0) as [|i|l r]; [reflexivity| |cbn in D; lia].
  apply Permutation_length in H. discriminate H.
Qed.
(** ... and is in any set closed under addition that holds zero and the terms *)
Lemma seval_in (S : ops) (P : carrier S -> Prop) (f : nat -> carrier S) t :
  P (zero S) -> (forall x y, P x -> P y -> P (add S x y)) -> (forall i, In i (leaves t) -> P (f i)) -> P (seval f t).
Proof.
  intros H0 Ha. induction t as [|i|l IHl r IHr]; cbn [seval leaves]; intros H; [exact H0|apply H; left; reflexivity|].
  apply Ha; [apply IHl|apply IHr]; intros i Hi; apply H, in_or_app; auto.
Qed.
Lemma sumn_in (S : ops) (P : carrier S -> Prop) key n (f : nat -> carrier S) :
  P (zero S) -> (forall x y, P x -> P y -> P (add S x y)) -> (forall i, i < n -> P (f i)) -> P (sumn key n f).
Proof. intros H0 Ha H. unfold sumn. apply (seval_in S P f); [exact H0|exact Ha|]. intros i Hi. apply H, (so_tree_lt (order S) key), Hi. Qed.


(** ** The exact real instance *)
Definition Rltb (x y : R) : bool := if Rlt_dec x y then true else false.
Definition Rleb (x y : R) : bool := if Rle_dec x y then true else false.
Definition Reqb (x y : R) : bool := if Req_EM_T x y then true else false.

Canonical Structure Rops : ops :=
  Ops R 0%R 1%R Rplus Rminus Rmult Rdiv Ropp sqrt Rltb Rleb Reqb (/ 10 ^ 14)%R left_order.

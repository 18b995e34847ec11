(** What BlockGISolver::solve does to the matrices of its callers.

    A StructuredG does not own its blocks: it holds two [std::vector<MatrixRef>], MatrixRef being
    [Eigen::Ref<Eigen::MatrixXd>] (include/jrl-qp/structured/StructuredG.h:70-72, defs.h:12).  The statement
    [pb_.G = G] (src/experimental/BlockGISolver.cpp:46) is the implicit copy assignment of StructuredG, i.e. that of
    std::vector (the copy assignment written for StructuredC, StructuredC.cpp:26-37, rebuilds its vector).  Assigning
    a vector either makes new elements, which then refer to the caller's matrices, or assigns existing elements, and
    assigning an Eigen::Ref copies coefficients into the matrix it already refers to.

    Modelled: libstdc++'s vector::operator=(const vector&) (bits/vector.tcc), Ref's assignment, with Eigen's assertion
    that sizes agree, on a heap of matrices; an address without matrix is a destroyed matrix.  The rest of the call is
    [bgi_solve], on the blocks seen through pb_.G, the factorisation in place being written back. *)
From Coq Require Import List Arith ZArith Lia Bool.
From Verif Require Import Base ActiveSet Num Solver Warm Block Ortho StructC StructG BlockGI.
Import ListNotations.

Section Alias.
Variable S : ops.
Notation blk := (blk S).
Definition heap := nat -> option blk.
(** std::vector<MatrixRef>: the matrices its elements refer to, and its capacity *)
Record refs := VR { v_refs : list nat; v_cap : nat }.
(** StructuredG.h:70-77 *)
Record gref := GR { gr_type : gtype; gr_diag : refs; gr_off : refs; gr_n : nat; gr_dec : bool }.
(** StructuredG.h:24, BlockGISolver.h (Problem()) *)
Definition gref_new : gref := GR TriBlockDiagonal (VR [] 0) (VR [] 0) 0 false.

Definition hset (h : heap) (a : nat) (D : blk) : heap := fun b => if b =? a then Some D else h b.
(** Eigen::Ref<MatrixXd>::operator=(const Ref &) *)
Definition ref_assign (h : heap) (dst src : nat) : res heap :=
  match h dst, h src with
  | Some D, Some E => guard ((brow D =? brow E) && (bcol D =? bcol E)) (Ok (hset h dst E))
  | _, _ => UB
  end.
(** std::copy on the elements that exist on both sides *)
Fixpoint assign_all (h : heap) (dst src : list nat) : res heap :=
  match dst, src with
  | d :: dst', s :: src' => do h <- ref_assign h d s; assign_all h dst' src'
  | _, _ => Ok h
  end.
(** vector.tcc, operator= *)
Definition vec_assign (h : heap) (v : refs) (src : list nat) : res (heap * refs) :=
  if v_cap v <? length src then Ok (h, VR src (length src))
  else do h <- assign_all h (v_refs v) src;
       Ok (h, VR (firstn (length src) (v_refs v) ++ skipn (length (v_refs v)) src) (v_cap v)).
(** the implicit StructuredG::operator=, members in order *)
Definition g_assign (h : heap) (p g : gref) : res (heap * gref) :=
  do hd <- vec_assign h (gr_diag p) (v_refs (gr_diag g));
  do ho <- vec_assign (fst hd) (gr_off p) (v_refs (gr_off g));
  Ok (fst ho, GR (gr_type g) (snd hd) (snd ho) (gr_n g) (gr_dec g)).

(** the blocks seen through references, and writing them *)
Fixpoint deref (h : heap) (l : list nat) : res (list blk) :=
  match l with
  | [] => Ok []
  | a :: l' => match h a with Some D => do ds <- deref h l'; Ok (D :: ds) | None => UB end
  end.
Fixpoint put (h : heap) (l : list nat) (ds : list blk) : heap :=
  match l, ds with
  | a :: l', D :: ds' => put (hset h a D) l' ds'
  | _, _ => h
  end.
Definition g_value (h : heap) (g : gref) : res (structG S) :=
  do ds <- deref h (v_refs (gr_diag g));
  do os <- deref h (v_refs (gr_off g));
  Ok (StG (gr_type g) ds os (gr_n g) (gr_dec g)).
Definition g_put (h : heap) (g : gref) (G : structG S) : heap :=
  put (put h (v_refs (gr_diag g)) (g_diag G)) (v_refs (gr_off g)) (g_off G).

Definition with_G (bp : bproblem S) (G : structG S) : bproblem S :=
  BP G (bp_a bp) (bp_asize bp) (bp_C bp) (bp_bl bp) (bp_blsize bp) (bp_bu bp) (bp_busize bp) (bp_xl bp) (bp_xlsize bp) (bp_xu bp) (bp_xusize bp).

(** The object with pb_.G, and a call with the Hessian [g] of the caller (the field bp_G of [bp] is not used):
    BlockGISolver.cpp:17-60 *)
Record asol := AS { as_b : bsol S; as_g : gref }.
Definition asol_new : asol := AS bsol_new gref_new.
Definition asolve (isz : carrier S -> bool) (tiny : carrier S) (junk : vec S) (bp : bproblem S) (o : options S) (ws : list status) (h : heap) (g : gref) (x : asol)
  : res (term_status * asol * heap) :=
  do hp <- g_assign h (as_g x) g;
  let '(h1, p) := hp in
  do G <- g_value h1 p;
  do r <- bgi_solve isz tiny junk (with_G bp G) o ws (as_b x);
  let '(st, b) := r in
  Ok (st, AS b (GR (gr_type p) (gr_diag p) (gr_off p) (gr_n p) (g_dec (b_G b))), g_put h1 p (b_G b)).
End Alias.
Arguments VR : clear implicits. Arguments hset {S}. Arguments ref_assign {S}. Arguments assign_all {S}. Arguments vec_assign {S}. Arguments g_assign {S}. Arguments deref {S}. Arguments put {S}.
Arguments g_value {S}. Arguments g_put {S}. Arguments with_G {S}. Arguments AS {S}. Arguments as_b {S}. Arguments as_g {S}. Arguments asol_new {S}. Arguments asolve {S}.

(** C77: the builders of the tests of the block decompositions and of the block solver, and the checks of these tests, for
    every list of block sizes and every draw (exact real arithmetic).

    [sizes] is the vector of block sizes, [start sizes k] the first row of block k (BlockTest.v). *)
From Coq Require Import List Arith ZArith Lia Bool Reals Lra.
From Verif Require Import Base ActiveSet ActiveSetProofs Num Solver QPSpec LinAlg QRUpdate GIMath GIBase GIInv GISafe GICall GIHist GIDual GIRun GIInit GIMult GIFinal GITerm GITotal GISame PropSolver PropReal Limits LimitsEx Warm WarmAS WarmQR WarmHot Util
  Block BlockElim BlockSpec BlockLLT BlockSolve BlockDense PropBlock Ortho OrthoProofs PropOrtho StructC PropStructC StructG StructGProofs StructQRProofs BlockGI BlockGIProofs BlockGIInit PropBlockGI PropBlockGen BlockTest BlockTestProofs.
Import ListNotations.
Local Open Scope R_scope.

(** ** Specification *)
(** [A]^T v = 0, resp. A v = 0, only for v = 0 *)
Definition rows_independent (n : nat) (A : rmat) : Prop := forall v : rvec, (forall t, (t < n)%nat -> rsum n (fun i => A i t * v i) = 0) -> forall i, (i < n)%nat -> v i = 0.
Definition columns_independent (n : nat) (A : rmat) : Prop := forall v : rvec, (forall t, (t < n)%nat -> rsum n (fun i => A t i * v i) = 0) -> forall i, (i < n)%nat -> v i = 0.
(** the entry (i, j) of block (k, k') *)
Definition entry (sizes : list nat) (M : rmat) (k k' i j : nat) : R := M (start sizes k + i)%nat (start sizes k' + j)%nat.
Definition in_blocks (sizes : list nat) (k k' i j : nat) : Prop := (k < length sizes)%nat /\ (k' < length sizes)%nat /\ (i < nth k sizes 0)%nat /\ (j < nth k' sizes 0)%nat.
(** which blocks of a structured Hessian may be non zero *)
Definition stored (t : gtype) (last k k' : nat) : Prop :=
  match t with
  | TriBlockDiagonal => (k <= k' + 1 /\ k' <= k + 1)%nat
  | BlockArrowUp => k = k' \/ k = 0%nat \/ k' = 0%nat
  | BlockArrowDown => k = k' \/ k = last \/ k' = last
  end.
(** The three kinds of test matrices *)
Definition draw (t : gtype) (sizes : list nat) (d : nat -> rmat) : res rmat :=
  match t with TriBlockDiagonal => biBlockDiagRandom sizes d | BlockArrowUp => blockDiagAndOneColDiagRandom sizes true d | BlockArrowDown => blockDiagAndOneColDiagRandom sizes false d end.
Definition gram (t : gtype) (n : nat) (A : rmat) : rmat := match t with TriBlockDiagonal => mul_At n A | _ => mul_tA n A end.
Definition nonsingular (t : gtype) (n : nat) (A : rmat) : Prop := match t with TriBlockDiagonal => rows_independent n A | _ => columns_independent n A end.
Definition pack_off_diag (t : gtype) (sizes : list nat) (H : rmat) : list rblk :=
  match t with TriBlockDiagonal => pack_sub sizes H | BlockArrowUp => pack_side true sizes H | BlockArrowDown => pack_side false sizes H end.
(** finding 6: the solves with an arrow pointing up need equal first and last blocks; the tests take care of it *)
Definition tip_size_ok (t : gtype) (sizes : list nat) : Prop := t = BlockArrowUp -> nth 0 sizes 0%nat = last sizes 0%nat.

(** ** The generators *)
Lemma draw_ok t ns d : ns <> [] -> exists A, draw t ns d = Ok A /\ match t with TriBlockDiagonal => bidiagonal ns A | BlockArrowUp => one_column true ns A | BlockArrowDown => one_column false ns A end.
Proof. intros Hn. destruct t; cbn [draw]; [apply biBlockDiag_zero|apply oneCol_zero|apply oneCol_zero]; auto. Qed.
Lemma draw_shape t ns d A : ns <> [] -> draw t ns d = Ok A -> match t with TriBlockDiagonal => bidiagonal ns A | BlockArrowUp => one_column true ns A | BlockArrowDown => one_column false ns A end.
Proof. intros Hn E. destruct (draw_ok t ns d Hn) as (A' & E' & H). rewrite E in E'. injection E' as <-. exact H. Qed.
Lemma gram_sym t n A m : symmetric m (gram t n A). Proof. destruct t; [apply mul_At_sym|apply mul_tA_sym|apply mul_tA_sym]. Qed.
Lemma gram_posdef_iff t n A : posdef n (gram t n A) <-> nonsingular t n A.
Proof.
  destruct t; cbn [gram nonsingular].
  - rewrite (gram_pos n A) by (intros; reflexivity). reflexivity.
  - rewrite (gram_pos n (fun i j => A j i)) by (intros; reflexivity). reflexivity.
  - rewrite (gram_pos n (fun i j => A j i)) by (intros; reflexivity). reflexivity.
Qed.
Lemma gram_low t ns d A : ns <> [] -> draw t ns d = Ok A -> forall k k' i j, in_blocks ns k k' i j -> ~ stored t (length ns - 1) k k' -> (k' < k)%nat -> entry ns (gram t (list_sum ns) A) k k' i j = 0.
Proof.
  intros Hn E k k' i j (Hk & Hk' & Hi & Hj) HS Hlt. apply (draw_shape t ns d A Hn) in E. unfold entry. destruct t; cbn [gram stored] in *.
  - apply bidiagonal_product; auto. lia.
  - apply (one_column_product true); auto. lia.
  - apply (one_column_product false); auto. lia.
Qed.
Lemma stg_pack t ns H : exists G, stg_new t (pack_diag ns H) (pack_off_diag t ns H) = Ok G /\ g_type G = t /\ g_diag G = pack_diag ns H /\ g_off G = pack_off_diag t ns H /\ g_n G = list_sum ns /\ g_dec G = false.
Proof.
  unfold stg_new. assert (E : forall (l acc : list rblk) k, Forall square l -> stg_loop l acc k = Ok (acc ++ l, (k + total l)%nat)).
  { induction l as [|D l IH]; intros acc k HF; cbn [stg_loop total]; [rewrite app_nil_r, Nat.add_0_r; reflexivity|]. inversion HF as [|? ? HD HF']; subst. unfold square in HD. rewrite <- HD, Nat.eqb_refl. cbn [guard].
    rewrite IH by auto. rewrite <- app_assoc. cbn [app]. do 2 f_equal. lia. }
  rewrite E by apply pack_square. cbn [bind fst snd app Nat.add]. rewrite pack_total. eexists. split; [reflexivity|]. cbn [g_type g_diag g_off g_n g_dec]. auto.
Qed.
Lemma tri_ok_pack t ns d A : ns <> [] -> draw t ns d = Ok A -> let H := gram t (list_sum ns) A in
  match t with
  | TriBlockDiagonal => tri_ok (pack_diag ns H) (pack_off_diag t ns H) /\ tri_half (pack_diag ns H) (pack_off_diag t ns H) H
  | _ => arrow_ok (up_of t) (pack_diag ns H) (pack_off_diag t ns H) /\ arrow_half (up_of t) (pack_diag ns H) (pack_off_diag t ns H) H
  end.
Proof.
  intros Hn E H. pose proof (gram_low t ns d A Hn E) as HL. fold H in HL. unfold entry, in_blocks in HL. destruct t; cbn [pack_off_diag up_of stored] in *.
  - split; [apply tri_pack_ok; auto|]. apply tri_pack_half. intros k i k' j Hk Hi Hj Hkk. refine (HL k k' i j _ _ _); [repeat split; auto; lia|lia|lia].
  - split; [apply arrow_pack_ok; auto|]. apply arrow_pack_half; auto. intros k i k' j Hk Hi Hj Hkk Hlt. refine (HL k k' i j _ _ _); [repeat split; auto; lia|lia|lia].
  - split; [apply arrow_pack_ok; auto|]. apply arrow_pack_half; auto. intros k i k' j Hk Hi Hj Hkk Hlt. refine (HL k k' i j _ _ _); [repeat split; auto; lia|lia|lia].
Qed.
Lemma pack_hessian t ns d A : ns <> [] -> draw t ns d = Ok A -> let H := gram t (list_sum ns) A in
  exists G, stg_new t (pack_diag ns H) (pack_off_diag t ns H) = Ok G /\ hessian_of G H /\ g_n G = list_sum ns /\ g_type G = t /\ g_diag G = pack_diag ns H.
Proof.
  intros Hn E H. destruct (stg_pack t ns H) as (G & EG & E1 & E2 & E3 & E4 & _). exists G. split; [exact EG|]. split; [|auto]. unfold hessian_of. rewrite E1, E2, E3, E4, pack_total. split; [reflexivity|]. split; [apply gram_sym|].
  pose proof (tri_ok_pack t ns d A Hn E) as K. cbv zeta in K. fold H in K. destruct t; exact K.
Qed.
(** For every draw the generator returns, the Hessian built from it has the declared block structure (so that the blocks handed
    over to the block solver are the whole matrix), and it is positive definite exactly when the drawn matrix is nonsingular. *)
Theorem C77_generators : forall t sizes d, sizes <> [] -> exists A, draw t sizes d = Ok A /\
  let n := list_sum sizes in let H := gram t n A in
  (forall i j, (i < n)%nat -> (j < n)%nat -> H i j = H j i) /\
  (forall k k' i j, in_blocks sizes k k' i j -> ~ stored t (length sizes - 1) k k' -> entry sizes H k k' i j = 0) /\
  (posdef n H <-> nonsingular t n A) /\
  exists G, stg_new t (pack_diag sizes H) (pack_off_diag t sizes H) = Ok G /\ hessian_of G H.
Proof.
  intros t ns d Hn. destruct (draw_ok t ns d Hn) as (A & E & _). exists A. split; [exact E|]. cbv zeta. split; [intros i j Hi Hj; apply (gram_sym t (list_sum ns) A (list_sum ns)); auto|]. split; [|split; [apply gram_posdef_iff|]].
  - intros k k' i j HB HS. destruct (Nat.lt_trichotomy k' k) as [Hlt|[Heq|Hgt]].
    + eapply gram_low; eauto.
    + exfalso. apply HS. subst k'. destruct t; cbn; auto; lia.
    + unfold entry. destruct HB as (Hk & Hk' & Hi & Hj). rewrite (gram_sym t (list_sum ns) A (list_sum ns)).
      * apply (gram_low t ns d A Hn E k' k j i); [repeat split; auto| |auto]. intros HS'. apply HS. destruct t; cbn in *; intuition lia.
      * pose proof (start_end ns k Hk). lia.
      * pose proof (start_end ns k' Hk'). lia.
  - destruct (pack_hessian t ns d A Hn E) as (G & EG & HG & _). exists G. auto.
Qed.
(** Every matrix with that block structure can be drawn *)
Theorem C77_every_matrix : forall t sizes A, sizes <> [] ->
  (match t with
   | TriBlockDiagonal => forall k k' i j, in_blocks sizes k k' i j -> k <> k' -> k <> (k' + 1)%nat -> entry sizes A k k' i j = 0
   | BlockArrowUp => forall k k' i j, in_blocks sizes k k' i j -> k <> k' -> k' <> 0%nat -> entry sizes A k k' i j = 0
   | BlockArrowDown => forall k k' i j, in_blocks sizes k k' i j -> k <> k' -> k' <> (length sizes - 1)%nat -> entry sizes A k k' i j = 0
   end) ->
  exists d A', draw t sizes d = Ok A' /\ forall i j, (i < list_sum sizes)%nat -> (j < list_sum sizes)%nat -> A' i j = A i j.
Proof.
  intros t ns A Hn HA. unfold in_blocks, entry in HA. destruct t; cbn [draw].
  - exists (bi_draws ns A). apply bi_every; auto. intros k i k' j Hk Hk' Hi Hj N1 N2. apply HA; auto.
  - exists (col_draws true ns A). apply col_every; auto. intros k i k' j Hk Hk' Hi Hj N1 N2. apply HA; auto.
  - exists (col_draws false ns A). apply col_every; auto. intros k i k' j Hk Hk' Hi Hj N1 N2. apply HA; auto.
Qed.

(** ** The tests of the block solver *)
Lemma pieces_diagonal ps bl y : Forall2 is_piece bl ps ->
  (forall k k' i j, (k < length ps)%nat -> (k' < length ps)%nat -> (i < pc_n (nth k ps pc0))%nat -> (j < pc_m (nth k' ps pc0))%nat ->
       cs_C y (start (rows_at ps) k + i)%nat (start (cols_at ps) k' + j)%nat = if (k =? k')%nat then pc_C (nth k ps pc0) j i else 0) ->
  block_diagonal bl (cs_C y).
Proof.
  intros HF HC. assert (ER : map brow bl = rows_at ps) by (clear HC; induction HF as [|b p l l' (H & _) _ IH]; [reflexivity|]; cbn [map]; rewrite H, IH; reflexivity).
  assert (EC : map bcol bl = cols_at ps) by (clear HC ER; induction HF as [|b p l l' (_ & H & _) _ IH]; [reflexivity|]; cbn [map]; rewrite H, IH; reflexivity).
  assert (OR : forall k, row_off bl k = start (rows_at ps) k) by (intros k; unfold row_off, start; rewrite <- ER, firstn_map; reflexivity).
  assert (OC : forall k, col_off bl k = start (cols_at ps) k) by (intros k; unfold col_off, start; rewrite <- EC, firstn_map; reflexivity).
  assert (HN : forall k D, nth_error bl k = Some D -> (k < length ps)%nat /\ is_piece D (nth k ps pc0)).
  { clear - HF. induction HF as [|b p l l' H _ IH]; intros [|k] D E; cbn in E; try discriminate; [injection E as <-; cbn; split; [lia|exact H]|]. destruct (IH k D E). cbn. split; [lia|auto]. }
  split.
  - intros k D i j E Hi Hj. destruct (HN k D E) as (Hk & P1 & P2 & P3). rewrite OR, OC, HC by (auto; congruence). rewrite Nat.eqb_refl. symmetry. apply P3; congruence.
  - intros k k' D D' i j E E' Hne Hi Hj. destruct (HN k D E) as (Hk & P1 & P2 & P3). destruct (HN k' D' E') as (Hk' & P1' & P2' & P3'). rewrite OR, OC, HC by (auto; congruence). apply Nat.eqb_neq in Hne. rewrite Hne. reflexivity.
Qed.
(** Both solvers return the same status and the same answer.  [tests] : problems "Small problem tridiag obj, ineq only" and
    "Small problem arrow up obj, ineq only"; a piece is one of the small random problems whose constraints are used. *)
Theorem C77_block_solver_tests : forall t sizes d A ps a o isz junk junk' s b,
  sizes <> [] -> tip_size_ok t sizes -> draw t sizes d = Ok A -> nonsingular t (list_sum sizes) A ->
  map pc_n ps = sizes -> (forall p j c, In p ps -> (j < pc_m p)%nat -> ~ (pc_l p j = Some c /\ pc_u p j = Some c)) ->
  o_warm o = false -> isz 0 = true -> history Rops s -> bhistory isz 0 b ->
  let n := list_sum sizes in let m := list_sum (map pc_m ps) in let H := gram t n A in
  exists G cs st s' b', stg_new t (pack_diag sizes H) (pack_off_diag t sizes H) = Ok G /\ build_constraints n m ps = Ok cs /\
    gi_solve junk' (Pb H n n a n (cs_C cs) n m (cs_l cs) m (cs_u cs) m (fun _ => None) 0 (fun _ => None) 0) o s = Ok (st, s') /\
    bgi_solve isz 0 junk (BP G a n (stc_new (cs_blocks cs)) (cs_l cs) m (cs_u cs) m (fun _ => None) 0 (fun _ => None) 0) o [] b = Ok (st, b') /\
    same_answer s' b'.
Proof.
  intros t ns d A ps a o isz junk junk' s b Hn HT E HP EN HB Ho Hz HS HBS n m H.
  destruct (pack_hessian t ns d A Hn E) as (G & EG & HG & EGn & EGt & EGd). fold n H in EG, HG, EGn, EGd.
  destruct (c_loop_spec n m ps 0 0 (Cstrs (fun _ _ => 0) [] (fun _ => None) (fun _ => None))) as (cs & EC & (bl & B1 & B2) & _ & _ & Y3 & Y4); [rewrite EN; unfold n; lia|unfold m; lia|].
  cbn [cs_blocks cs_C app Nat.add] in *. subst bl. fold (build_constraints n m ps) in EC.
  assert (ER : rows_of (cs_blocks cs) = n) by (unfold rows_of, n; rewrite <- EN; clear - B2; induction B2 as [|? ? ? ? (Hq & _) _ IH]; [reflexivity|]; unfold sum_list, list_sum in *; cbn [map fold_right]; rewrite Hq; congruence).
  assert (EM : cols_of (cs_blocks cs) = m) by (unfold cols_of, m; clear - B2; induction B2 as [|? ? ? ? (_ & Hq & _) _ IH]; [reflexivity|]; unfold sum_list, list_sum in *; cbn [map fold_right]; rewrite Hq; congruence).
  set (bp := BP G a n (stc_new (cs_blocks cs)) (cs_l cs) m (cs_u cs) m (fun _ => None) 0 (fun _ => None) 0).
  assert (ED : dense_of bp H (cs_C cs) = Pb H n n a n (cs_C cs) n m (cs_l cs) m (cs_u cs) m (fun _ => None) 0 (fun _ => None) 0).
  { unfold dense_of, bp. cbn [bp_G bp_a bp_asize bp_C bp_bl bp_blsize bp_bu bp_busize bp_xl bp_xlsize bp_xu bp_xusize]. rewrite EGn, stc_new_spec. cbn [c_nbVar c_nbCstr]. rewrite ER, EM. reflexivity. }
  assert (HBP : block_problem bp H (cs_C cs)).
  { split.
    - rewrite ED. unfold sizes_ok. cbn. rewrite !Nat.eqb_refl. rewrite orb_true_r. reflexivity.
    - exists (cs_blocks cs). split; [reflexivity|]. apply (pieces_diagonal ps); auto.
    - exact HG.
    - cbn [bp_G bp]. rewrite EGt, EGd. intros Hu D1 D2 E1 E2. assert (t = BlockArrowUp) as -> by (destruct t; try discriminate; reflexivity).
      rewrite pack_length in E2. apply nth_error_tab in E1 as [_ ->]. apply nth_error_tab in E2 as [_ ->]. cbn [brow block_at]. rewrite <- last_nth. symmetry. apply HT. reflexivity. }
  assert (HPD : posdef (g_n (bp_G bp)) H) by (cbn [bp bp_G]; rewrite EGn; apply gram_posdef_iff; exact HP).
  assert (HNE : forall i, (i < ncb (dense_of bp H (cs_C cs)))%nat -> ~ is_equality (dense_of bp H (cs_C cs)) i).
  { rewrite ED. intros i Hi (c & C1 & C2). unfold ncb, nc, nb in Hi. cbn [p_Ccols p_xlsize] in Hi. unfold clo, cup, nc in C1, C2. cbn [p_Ccols p_bl p_bu p_xl p_xu] in C1, C2.
    assert (Him : (i < m)%nat) by lia. rewrite (proj2 (Nat.ltb_lt _ _) Him) in C1, C2. destruct (locate (cols_at ps) i Him) as (k & j & Hk & Hj & ->). rewrite map_length in Hk.
    rewrite (nth_indep _ 0%nat (pc_m pc0)), map_nth in Hj by (rewrite map_length; auto). destruct (Y4 k j Hk Hj) as [EL EU]. rewrite EL in C1. rewrite EU in C2.
    apply (HB (nth k ps pc0) j c); auto. apply nth_In. exact Hk. }
  destruct (C50_block_exact isz junk junk' bp H (cs_C cs) o [] b s Hz HBS HS HBP HPD (or_introl (conj Ho eq_refl)) HNE) as (st & s' & b' & E1 & E2 & E3).
  exists G, cs, st, s', b'. rewrite <- ED. auto.
Qed.

(** ** The tests of the tridiagonal decomposition *)
Lemma dense_factor n (H : rmat) : symmetric n H -> posdef n H -> exists L2, llt n H = (None, L2) /\ lower_triangular n (lower L2) /\ (forall i, (i < n)%nat -> 0 < L2 i i) /\
  (forall i j, (i < j)%nat -> L2 i j = H i j) /\ (forall Lm, lower_triangular n Lm -> is_cholesky n H Lm -> forall i j, (i < n)%nat -> (j < n)%nat -> Lm i j = lower L2 i j).
Proof.
  intros HS HP. assert (EG : forall i j, (i < n)%nat -> (j < n)%nat -> gsym H i j = H i j) by (intros i j Hi Hj; unfold gsym; destruct (Nat.leb_spec j i); auto).
  assert (HP' : posdef n (gsym H)).
  { intros v Hv. specialize (HP v Hv). unfold quad in *. erewrite sum_ext; [exact HP|]. intros i Hi. erewrite sum_ext; [reflexivity|]. intros j Hj. cbv beta. rewrite EG by auto. reflexivity. }
  apply llt_iff in HP'. pose proof (llt_spec n H) as HL. destruct (llt n H) as [o L2] eqn:E. cbn [fst] in HP'. subst o. exists L2. split; [reflexivity|].
  assert (LT : lower_triangular n (lower L2)) by (intros i j Hi Hj; unfold lower; rewrite (proj2 (Nat.leb_gt _ _) Hi); reflexivity).
  assert (DP : forall i, (i < n)%nat -> 0 < L2 i i) by (apply (llt_diag_pos n H L2 HL)).
  split; [exact LT|]. split; [exact DP|]. split; [destruct HL as (_ & _ & HU); intros i j Hij; apply HU; right; lia|].
  intros Lm HT (HD & HC). apply (chol_unique n H); auto.
  - intros i Hi. unfold lower. rewrite Nat.leb_refl. auto.
  - intros i j Hi Hj. rewrite <- EG by auto. apply (llt_inv_full n H L2 HL); auto.
Qed.
Notation b0 := (Bk 0 0 (fun _ _ : nat => 0) : rblk).
Lemma upper_pack ns H dl : Forall2 same_upper (pack_diag ns H) dl -> length dl = length ns /\ forall k, (k < length ns)%nat ->
  nth_error dl k = Some (nth k dl b0) /\ brow (nth k dl b0) = nth k ns 0%nat /\ bcol (nth k dl b0) = nth k ns 0%nat /\ forall a b, (a < b)%nat -> bm (nth k dl b0) a b = H (start ns k + a)%nat (start ns k + b)%nat.
Proof.
  intros HF. assert (EL : length dl = length ns) by (rewrite <- (pack_length ns H); clear - HF; induction HF; cbn; congruence). split; [exact EL|]. intros k Hk.
  assert (E : nth_error dl k = Some (nth k dl b0)) by (apply nth_error_nth'; lia). split; [exact E|].
  assert (K : forall l l' : list rblk, Forall2 same_upper l l' -> forall k D D', nth_error l k = Some D -> nth_error l' k = Some D' -> same_upper D D').
  { clear. intros l l' HF. induction HF as [|? ? ? ? HS _ IH]; intros [|k] D D' E E'; cbn in E, E'; try discriminate; [congruence|eauto]. }
  destruct (K _ _ HF k (block_at H (start ns k) (start ns k) (nth k ns 0) (nth k ns 0))%nat _ (proj2 (nth_error_tab _ _ _ _) (conj Hk eq_refl)) E) as (K1 & K2 & K3). cbn [brow bcol bm block_at] in *. auto.
Qed.
Lemma sizes_nth (sl sub : list rblk) : map (fun B => (brow B, bcol B)) sl = map (fun B => (brow B, bcol B)) sub -> length sl = length sub /\ forall k B, nth_error sub k = Some B -> nth_error sl k = Some (nth k sl b0) /\ brow (nth k sl b0) = brow B /\ bcol (nth k sl b0) = bcol B.
Proof.
  intros E. assert (EL : length sl = length sub) by (rewrite <- (map_length (fun B : rblk => (brow B, bcol B)) sl), E; apply map_length). split; [exact EL|]. intros k B EB.
  assert (Hk : (k < length sub)%nat) by (apply nth_error_Some; congruence). assert (ES : nth_error sl k = Some (nth k sl b0)) by (apply nth_error_nth'; lia). split; [exact ES|].
  pose proof (map_nth_error (fun B : rblk => (brow B, bcol B)) k sl ES) as A1. pose proof (map_nth_error (fun B : rblk => (brow B, bcol B)) k sub EB) as A2. rewrite E, A2 in A1. injection A1 as A3 A4. auto.
Qed.
Lemma in_block_of ns k a c (w : nat) : (k < length ns)%nat -> (a < nth k ns 0)%nat -> (c < length ns)%nat -> w = nth c ns 0%nat -> (start ns c <= start ns k + a < start ns c + w)%nat -> c = k.
Proof. intros Hk Ha Hc -> HI. apply (same_block ns k a c); auto. rewrite (start_S ns c Hc). exact HI. Qed.
(** the matrix once the blocks of a tridiagonal decomposition have been written over it *)
Lemma write_tri ns (H : rmat) dl sl Lm : ns <> [] -> Forall2 same_upper (pack_diag ns H) dl -> map (fun B => (brow B, bcol B)) sl = map (fun B => (brow B, bcol B)) (pack_sub ns H) ->
  (forall k k' i j, in_blocks ns k k' i j -> (k' + 1 < k)%nat -> entry ns H k k' i j = 0) -> tri_half dl sl Lm ->
  forall i j, (i < list_sum ns)%nat -> (j < list_sum ns)%nat -> write_back H (diag_places ns dl ++ sub_places ns sl) i j = if (j <=? i)%nat then Lm i j else H i j.
Proof.
  intros Hn HF HS HZ (T1 & T2 & T3) i j Hi Hj. destruct (upper_pack _ _ _ HF) as (EL & HD). destruct (sizes_nth _ _ HS) as (ES & HB). unfold pack_sub in ES. rewrite map_length, seq_length in ES.
  assert (HSn : forall k, (k < length ns - 1)%nat -> nth_error sl k = Some (nth k sl b0) /\ brow (nth k sl b0) = nth (k + 1) ns 0%nat /\ bcol (nth k sl b0) = nth k ns 0%nat).
  { intros k Hk. apply (HB k (block_at H (start ns (k + 1)) (start ns k) (nth (k + 1) ns 0) (nth k ns 0))%nat). apply nth_error_tab. auto. }
  assert (OF : forall k, off dl k = start ns k).
  { intros k. rewrite off_start. f_equal. apply (nth_ext _ _ 0%nat 0%nat); [rewrite map_length; auto|]. intros c Hc. rewrite map_length in Hc. rewrite (nth_indep _ 0%nat (brow b0)), map_nth by (rewrite map_length; lia). apply HD. lia. }
  destruct (locate ns i Hi) as (k & a & Hk & Ha & ->). destruct (locate ns j Hj) as (k' & b & Hk' & Hb & ->).
  assert (CD : forall p, In p (diag_places ns dl) -> covers p (start ns k + a)%nat (start ns k' + b)%nat -> k = k' /\ p = (start ns k, start ns k, nth k dl b0)).
  { intros p Hp Hc. unfold diag_places in Hp. apply in_map_iff in Hp as (c & <- & Hp). apply in_seq in Hp. destruct Hc as [C1 C2]. destruct (HD c) as (_ & D1 & D2 & _); [lia|].
    apply (in_block_of ns k a c) in C1; auto; [|lia]. apply (in_block_of ns k' b c) in C2; auto; [|lia]. subst c. subst k'. auto. }
  assert (CS : forall p, In p (sub_places ns sl) -> covers p (start ns k + a)%nat (start ns k' + b)%nat -> k = (k' + 1)%nat /\ p = (start ns (k' + 1), start ns k', nth k' sl b0)).
  { intros p Hp Hc. unfold sub_places in Hp. apply in_map_iff in Hp as (c & <- & Hp). apply in_seq in Hp. destruct Hc as [C1 C2]. destruct (HSn c) as (_ & D1 & D2); [lia|].
    apply (in_block_of ns k a (c + 1)) in C1; auto; [|lia]. apply (in_block_of ns k' b c) in C2; auto; [|lia]. subst c. auto. }
  destruct (Nat.eq_dec k k') as [<-|Hkk].
  - destruct (HD k Hk) as (D0 & D1 & D2 & D3). apply write_in.
    + intros p Hp Hc. apply in_app_or in Hp as [Hp|Hp]; [|apply CS in Hc as [Hc _]; auto; lia]. apply CD in Hc as [_ ->]; auto. cbn [value]. replace (start ns k + a - start ns k)%nat with a by lia. replace (start ns k + b - start ns k)%nat with b by lia.
      destruct (Nat.leb_spec (start ns k + b) (start ns k + a)) as [Hab|Hab]; [|apply D3; lia]. pose proof (T1 k (nth k dl b0) a b D0 ltac:(lia) ltac:(lia)) as HT. rewrite !OF in HT. symmetry. exact HT.
    + right. exists (start ns k, start ns k, nth k dl b0). split; [|cbn; lia]. apply in_or_app. left. unfold diag_places. apply in_map_iff. exists k. split; [reflexivity|]. apply in_seq. lia.
  - destruct (Nat.eq_dec k (k' + 1)) as [->|Hk1].
    + destruct (HSn k') as (D0 & D1 & D2); [lia|]. assert (Hlt : (start ns k' + b <= start ns (k' + 1) + a)%nat) by (replace (k' + 1)%nat with (S k') by lia; rewrite start_S by auto; lia). rewrite (proj2 (Nat.leb_le _ _) Hlt). apply write_in.
      * intros p Hp Hc. apply in_app_or in Hp as [Hp|Hp]; [apply CD in Hc as [Hc _]; auto; lia|]. apply CS in Hc as [_ ->]; auto. cbn [value]. replace (start ns (k' + 1) + a - start ns (k' + 1))%nat with a by lia. replace (start ns k' + b - start ns k')%nat with b by lia.
        pose proof (T2 k' (nth k' sl b0) a b D0 ltac:(lia) ltac:(lia)) as HT. rewrite !OF in HT. symmetry. exact HT.
      * right. exists (start ns (k' + 1), start ns k', nth k' sl b0). split; [|cbn; lia]. apply in_or_app. right. unfold sub_places. apply in_map_iff. exists k'. split; [reflexivity|]. apply in_seq. lia.
    + rewrite write_out by (intros p Hp Hc; apply in_app_or in Hp as [Hp|Hp]; [apply CD in Hc as [Hc _]; auto; lia|apply CS in Hc as [Hc _]; auto; lia]).
      destruct (Nat.leb_spec (start ns k' + b) (start ns k + a)) as [Hab|Hab]; [|reflexivity].
      assert (k' + 1 < k)%nat as Hlt. { destruct (Nat.lt_ge_cases k k') as [Hc|Hc]; [|lia]. pose proof (start_mono ns (S k) k' Hc) as M. rewrite (start_S ns k Hk) in M. lia. }
      pose proof (HZ k k' a b ltac:(repeat split; auto) Hlt) as Z. unfold entry in Z. rewrite Z. symmetry. destruct (HD k Hk) as (D0 & D1 & D2 & _). destruct (HD k' Hk') as (D0' & D1' & D2' & _).
      pose proof (T3 k k' _ _ a b D0 D0' Hlt ltac:(lia) ltac:(lia)) as HT. rewrite !OF in HT. exact HT.
Qed.

Lemma lm_lower n (L2 Lm : rmat) : (forall i, (i < n)%nat -> 0 < L2 i i) -> (forall i j, (i < n)%nat -> (j < n)%nat -> Lm i j = lower L2 i j) -> lower_triangular n Lm -> inv_lower n Lm /\
  (forall X V, solves n Lm X V -> solves n (lower L2) X V) /\ (forall X V, solves_t n Lm X V -> solves_t n (lower L2) X V).
Proof.
  intros HD HE HT. split; [split; [exact HT|]|split].
  - intros i Hi. rewrite HE by auto. unfold lower. rewrite Nat.leb_refl. specialize (HD i Hi). lra.
  - intros X V (S1 & S2 & S3). split; [auto|]. split; [auto|]. intros i j Hi Hj. rewrite <- (S3 i j Hi Hj). apply sum_ext. intros k Hk. rewrite HE by auto. reflexivity.
  - intros X V (S1 & S2 & S3). split; [auto|]. split; [auto|]. intros i j Hi Hj. rewrite <- (S3 i j Hi Hj). apply sum_ext. intros k Hk. rewrite HE by auto. reflexivity.
Qed.
(** triBlockDiagLLTTest.cpp: the decomposition succeeds, the matrix holding the blocks ends up equal to the dense
    decomposition of its copy, entry by entry (upper half included), and the solves, with or without hint, return the
    solution of the dense triangular systems. *)
Theorem C77_tridiagonal_test : forall sizes d A, sizes <> [] -> biBlockDiagRandom sizes d = Ok A -> rows_independent (list_sum sizes) A ->
  let n := list_sum sizes in let H := mul_At n A in
  exists dl sl L2, triBlockDiagLLT (pack_diag sizes H) (pack_sub sizes H) = Ok (true, dl, sl) /\ llt n H = (None, L2) /\
    (forall i j, (i < n)%nat -> (j < n)%nat -> write_back H (diag_places sizes dl ++ sub_places sizes sl) i j = L2 i j) /\
    (forall V s, brow V = n -> zero_before s V -> exists X, triBlockDiagLSolve dl sl V s = Ok X /\ solves n (lower L2) X V) /\
    (forall V e, brow V = n -> zero_from e V -> exists X, triBlockDiagLTransposeSolve dl sl V e = Ok X /\ solves_t n (lower L2) X V).
Proof.
  intros ns d A Hn E HI n H. change (draw TriBlockDiagonal ns d = Ok A) in E. pose proof (gram_low _ ns d A Hn E) as HL. pose proof (tri_ok_pack _ ns d A Hn E) as HO. cbv zeta in HO. cbn [gram pack_off_diag stored] in HL, HO. fold n H in HL, HO. destruct HO as [O1 O2].
  assert (HS : symmetric n H) by apply mul_At_sym. assert (HP : posdef n H) by (apply (gram_posdef_iff TriBlockDiagonal n A); exact HI).
  assert (ET : total (pack_diag ns H) = n) by apply pack_total.
  destruct (C19_tridiagonal_cholesky _ _ H O1 O2) as (ok & dl & sl & F1 & F2 & F3 & F4 & F5); [rewrite ET; exact HS|]. rewrite ET in F5. destruct (F5 HP) as [-> F6].
  assert (ET' : total dl = n) by (rewrite <- ET; apply same_upper_total; auto).
  destruct (lower_half_exists_tri dl sl F2) as (Lm & L1 & L3). rewrite ET' in L3. specialize (F6 Lm L1 L3).
  destruct (dense_factor n H HS HP) as (L2 & D1 & D2 & D3 & D4 & D5). pose proof (D5 Lm L3 F6) as EE. destruct (lm_lower n L2 Lm D3 EE L3) as (G1 & G2 & G3).
  exists dl, sl, L2. split; [exact F1|]. split; [exact D1|]. split; [|split].
  - intros i j Hi Hj. rewrite (write_tri ns H dl sl Lm Hn F3 F4); auto.
    + destruct (Nat.leb_spec j i) as [Hji|Hji]; [rewrite EE by auto; unfold lower; rewrite (proj2 (Nat.leb_le _ _) Hji); reflexivity|symmetry; apply D4; auto].
    + intros k k' a b HB Hk. apply HL; auto; lia.
  - intros V s HV HZ. destruct (C20_tridiagonal_solve dl sl Lm V s F2 L1) as (X & X1 & X2); rewrite ?ET'; auto. rewrite ET' in X2. exists X. auto.
  - intros V e HV HZ. destruct (C20_tridiagonal_transpose_solve dl sl Lm V e F2 L1) as (X & X1 & X2); rewrite ?ET'; auto. rewrite ET' in X2. exists X. auto.
Qed.

(** ** The tests of the arrow decomposition *)
Lemma write_arrow (up : bool) ns (H : rmat) dl sl Lm : ns <> [] -> Forall2 same_upper (pack_diag ns H) dl -> map (fun B => (brow B, bcol B)) sl = map (fun B => (brow B, bcol B)) (pack_side up ns H) ->
  (forall k k' i j, in_blocks ns k k' i j -> (k' < k)%nat -> (if up then (0 < k')%nat else (k < length ns - 1)%nat) -> entry ns H k k' i j = 0) -> arrow_half up dl sl Lm ->
  forall i j, (i < list_sum ns)%nat -> (j < list_sum ns)%nat -> write_back H (diag_places ns dl ++ side_places up ns sl) i j = if (j <=? i)%nat then Lm i j else H i j.
Proof.
  intros Hn HF HS HZ (T1 & T2 & T3) i j Hi Hj. destruct (upper_pack _ _ _ HF) as (EL & HD). destruct (sizes_nth _ _ HS) as (ES & HB). unfold pack_side in ES. rewrite map_length, seq_length in ES.
  set (rb := fun c : nat => if up then (c + 1)%nat else (length ns - 1)%nat). set (cb := fun c : nat => if up then 0%nat else c).
  assert (HSn : forall c, (c < length ns - 1)%nat -> nth_error sl c = Some (nth c sl b0) /\ brow (nth c sl b0) = nth (rb c) ns 0%nat /\ bcol (nth c sl b0) = nth (cb c) ns 0%nat).
  { intros c Hc. subst rb cb. destruct up; cbv beta iota; [apply (HB c (block_at H (start ns (c + 1)) 0 (nth (c + 1) ns 0) (nth 0 ns 0))%nat)|apply (HB c (block_at H (start ns (length ns - 1)) (start ns c) (nth (length ns - 1) ns 0) (nth c ns 0))%nat)]; apply nth_error_tab; auto. }
  assert (OF : forall k, off dl k = start ns k).
  { intros k. rewrite off_start. f_equal. apply (nth_ext _ _ 0%nat 0%nat); [rewrite map_length; auto|]. intros c Hc. rewrite map_length in Hc. rewrite (nth_indep _ 0%nat (brow b0)), map_nth by (rewrite map_length; lia). apply HD. lia. }
  assert (SP : side_places up ns sl = map (fun c => (start ns (rb c), start ns (cb c), nth c sl b0)) (seq 0 (length sl))) by (unfold side_places, rb, cb; destruct up; reflexivity).
  assert (T2' : forall c a b, (c < length ns - 1)%nat -> (a < nth (rb c) ns 0)%nat -> (b < nth (cb c) ns 0)%nat -> Lm (start ns (rb c) + a)%nat (start ns (cb c) + b)%nat = bm (nth c sl b0) a b).
  { intros c a b Hc Ha Hb. destruct (HSn c Hc) as (D0 & D1 & D2). pose proof (T2 c (nth c sl b0) a b D0 ltac:(lia) ltac:(lia)) as HT. rewrite ES in HT. subst rb cb. destruct up; cbv beta iota in *; rewrite ?OF in HT; exact HT. }
  destruct (locate ns i Hi) as (k & a & Hk & Ha & ->). destruct (locate ns j Hj) as (k' & b & Hk' & Hb & ->). pose proof (list_eq_dec Nat.eq_dec ns []) as _. assert (Hlen : (0 < length ns)%nat) by lia.
  assert (Rb : forall c, (c < length ns - 1)%nat -> (rb c < length ns)%nat /\ (cb c < rb c)%nat) by (intros c Hc; subst rb cb; destruct up; cbv beta iota; lia).
  assert (CD : forall p, In p (diag_places ns dl) -> covers p (start ns k + a)%nat (start ns k' + b)%nat -> k = k' /\ p = (start ns k, start ns k, nth k dl b0)).
  { intros p Hp Hc. unfold diag_places in Hp. apply in_map_iff in Hp as (c & <- & Hp). apply in_seq in Hp. destruct Hc as [C1 C2]. destruct (HD c) as (_ & D1 & D2 & _); [lia|].
    apply (in_block_of ns k a c) in C1; auto; [|lia]. apply (in_block_of ns k' b c) in C2; auto; [|lia]. subst c. subst k'. auto. }
  assert (CS : forall p, In p (side_places up ns sl) -> covers p (start ns k + a)%nat (start ns k' + b)%nat -> exists c, (c < length ns - 1)%nat /\ k = rb c /\ k' = cb c /\ p = (start ns (rb c), start ns (cb c), nth c sl b0)).
  { intros p Hp Hc. rewrite SP in Hp. apply in_map_iff in Hp as (c & <- & Hp). apply in_seq in Hp. destruct Hc as [C1 C2]. destruct (HSn c) as (_ & D1 & D2); [lia|]. destruct (Rb c ltac:(lia)).
    apply (in_block_of ns k a (rb c)) in C1; auto. apply (in_block_of ns k' b (cb c)) in C2; auto; [|lia]. exists c. split; [lia|]. subst k k'. auto. }
  destruct (Nat.eq_dec k k') as [<-|Hkk].
  - destruct (HD k Hk) as (D0 & D1 & D2 & D3). apply write_in.
    + intros p Hp Hc. apply in_app_or in Hp as [Hp|Hp]; [|apply CS in Hc as (c & Hc & E1 & E2 & _); auto; destruct (Rb c Hc); lia]. apply CD in Hc as [_ ->]; auto. cbn [value]. replace (start ns k + a - start ns k)%nat with a by lia. replace (start ns k + b - start ns k)%nat with b by lia.
      destruct (Nat.leb_spec (start ns k + b) (start ns k + a)) as [Hab|Hab]; [|apply D3; lia]. pose proof (T1 k (nth k dl b0) a b D0 ltac:(lia) ltac:(lia)) as HT. rewrite !OF in HT. symmetry. exact HT.
    + right. exists (start ns k, start ns k, nth k dl b0). split; [|cbn; lia]. apply in_or_app. left. unfold diag_places. apply in_map_iff. exists k. split; [reflexivity|]. apply in_seq. lia.
  - assert (DEC : (exists c, (c < length ns - 1)%nat /\ k = rb c /\ k' = cb c) \/ ~ (exists c, (c < length ns - 1)%nat /\ k = rb c /\ k' = cb c)).
    { subst rb cb. destruct up; cbv beta iota.
      - destruct (Nat.eq_dec k' 0) as [->|Hk0]; [left; exists (k - 1)%nat; lia|right; intros (c & _ & _ & Hc); lia].
      - destruct (Nat.eq_dec k (length ns - 1)) as [->|Hk0]; [left; exists k'; lia|right; intros (c & _ & Hc & _); lia]. }
    destruct DEC as [(c & Hc & E1 & E2)|DEC].
    + subst k k'. destruct (Rb c Hc) as [_ Hr]. assert (Hlt : (start ns (cb c) + b <= start ns (rb c) + a)%nat) by (pose proof (start_mono ns (S (cb c)) (rb c) Hr) as M; rewrite (start_S ns (cb c) Hk') in M; lia). rewrite (proj2 (Nat.leb_le _ _) Hlt). apply write_in.
      * intros p Hp Hcv. apply in_app_or in Hp as [Hp|Hp]; [apply CD in Hcv as [Hcv _]; auto; lia|]. apply CS in Hcv as (c' & Hc' & E1 & E2 & ->); auto. assert (c' = c) as -> by (subst rb cb; destruct up; cbv beta iota in *; lia).
        cbn [value]. replace (start ns (rb c) + a - start ns (rb c))%nat with a by lia. replace (start ns (cb c) + b - start ns (cb c))%nat with b by lia. symmetry. apply T2'; auto.
      * right. exists (start ns (rb c), start ns (cb c), nth c sl b0). split; [|destruct (HSn c Hc) as (_ & D1 & D2); cbn; lia]. apply in_or_app. right. rewrite SP. apply in_map_iff. exists c. split; [reflexivity|]. apply in_seq. lia.
    + rewrite write_out by (intros p Hp Hc; apply in_app_or in Hp as [Hp|Hp]; [apply CD in Hc as [Hc _]; auto; lia|apply CS in Hc as (c & C1 & C2 & C3 & _); auto; apply DEC; exists c; auto]).
      destruct (Nat.leb_spec (start ns k' + b) (start ns k + a)) as [Hab|Hab]; [|reflexivity].
      assert (k' < k)%nat as Hlt. { destruct (Nat.lt_ge_cases k k') as [Hc|Hc]; [|lia]. pose proof (start_mono ns (S k) k' Hc) as M. rewrite (start_S ns k Hk) in M. lia. }
      assert (Hcond : if up then (0 < k')%nat else (k < length ns - 1)%nat).
      { subst rb cb. destruct up; cbv beta iota in *; [destruct (Nat.eq_dec k' 0) as [->|]; [exfalso; apply DEC; exists (k - 1)%nat; lia|lia]|destruct (Nat.eq_dec k (length ns - 1)) as [->|]; [exfalso; apply DEC; exists k'; lia|lia]]. }
      pose proof (HZ k k' a b ltac:(repeat split; auto) Hlt Hcond) as Z. unfold entry in Z. rewrite Z. symmetry. destruct (HD k Hk) as (D0 & D1 & D2 & _). destruct (HD k' Hk') as (D0' & D1' & D2' & _).
      rewrite <- ES in Hcond. pose proof (T3 k k' _ _ a b D0 D0' Hcond Hlt ltac:(lia) ltac:(lia)) as HT. rewrite !OF in HT. exact HT.
Qed.
(** the lower half of the permuted matrix, seen at the places the blocks have in the original one *)
Definition view (n0 m : nat) (Lm : rmat) : rmat := fun i j => if (i <? n0)%nat then Lm (m + i)%nat (m + j)%nat else if (j <? n0)%nat then Lm (m + j)%nat (i - n0)%nat else Lm (i - n0)%nat (j - n0)%nat.
Lemma off_app_l (ds : list rblk) Db k : (k <= length ds)%nat -> off (ds ++ [Db]) k = off ds k.
Proof. revert k. induction ds as [|D ds IH]; intros [|k] Hk; try reflexivity; [cbn in Hk; lia|]. cbn [app]. rewrite !off_S. f_equal. apply IH. cbn in Hk. lia. Qed.
Lemma off_full (ds : list rblk) : off ds (length ds) = total ds.
Proof. induction ds as [|D ds IH]; [reflexivity|]. cbn [length]. rewrite off_S. cbn [total]. rewrite IH. reflexivity. Qed.
Lemma arrow_half_view (Db : rblk) ds sl Lm : arrow_ok true (Db :: ds) sl -> arrow_half false (ds ++ [Db]) (map tblk sl) Lm -> arrow_half true (Db :: ds) sl (view (brow Db) (total ds) Lm).
Proof.
  intros (A1 & A2 & A3) (T1 & T2 & T3). rewrite map_length in T2, T3. assert (EL : length ds = length sl) by (cbn in A1; lia).
  assert (OL : off (ds ++ [Db]) (length sl) = total ds) by (rewrite off_app_l, <- EL, off_full by lia; reflexivity).
  assert (NE : forall k D, nth_error ds k = Some D -> (k < length ds)%nat /\ nth_error (ds ++ [Db]) k = Some D) by (intros k D E; assert ((k < length ds)%nat) by (apply nth_error_Some; congruence); split; [auto|rewrite nth_error_app1; auto]).
  split; [|split].
  - intros [|k] D i j E Hi Hj; cbn in E.
    + injection E as <-. rewrite off_0. unfold view. cbn [Nat.add]. rewrite (proj2 (Nat.ltb_lt _ _)) by lia. rewrite <- OL. apply T1; auto. rewrite nth_error_app2, EL, Nat.sub_diag by lia. reflexivity.
    + destruct (NE k D E) as [Hk E']. rewrite off_S. unfold view. rewrite !(proj2 (Nat.ltb_ge _ _)) by lia. replace (brow Db + off ds k + i - brow Db)%nat with (off ds k + i)%nat by lia. replace (brow Db + off ds k + j - brow Db)%nat with (off ds k + j)%nat by lia.
      rewrite <- (off_app_l ds Db k) by lia. apply T1; auto.
  - intros k B i j E Hi Hj. assert (Hk : (k < length sl)%nat) by (apply nth_error_Some; congruence). destruct (nth_error ds k) as [D|] eqn:ED; [|apply nth_error_None in ED; lia].
    destruct (A3 k B D Db E) as [S1 S2]; [rewrite Nat.add_1_r; exact ED|reflexivity|]. rewrite Nat.add_1_r, off_S. unfold view. rewrite (proj2 (Nat.ltb_ge (brow Db + off ds k + i) _)) by lia. rewrite (proj2 (Nat.ltb_lt j _)) by lia.
    replace (brow Db + off ds k + i - brow Db)%nat with (off ds k + i)%nat by lia. pose proof (T2 k (tblk B) j i (map_nth_error _ _ _ E) Hj Hi) as HT. cbv beta iota in HT. rewrite OL, off_app_l in HT by lia. exact HT.
  - intros [|k] [|k'] D D' i j E E' H0 Hk Hi Hj; cbn in E, E'; try (exfalso; lia). destruct (NE k D E) as [Hk1 E1]. destruct (NE k' D' E') as [Hk2 E2]. rewrite !off_S. unfold view. rewrite !(proj2 (Nat.ltb_ge _ _)) by lia.
    replace (brow Db + off ds k + i - brow Db)%nat with (off ds k + i)%nat by lia. replace (brow Db + off ds k' + j - brow Db)%nat with (off ds k' + j)%nat by lia.
    rewrite <- (off_app_l ds Db k), <- (off_app_l ds Db k') by lia. apply (T3 k k' D D'); auto; lia.
Qed.
Lemma up_of_first (up : bool) : up_of (if up then BlockArrowUp else BlockArrowDown) = up. Proof. destruct up; reflexivity. Qed.
Definition tip (up : bool) (sizes : list nat) : nat := if up then nth 0 sizes 0%nat else 0%nat.
Lemma tip_pack (up : bool) ns H : ns <> [] -> tip_size up (pack_diag ns H) = tip up ns.
Proof. intros Hn. destruct up; [|reflexivity]. destruct ns as [|a r]; [congruence|]. reflexivity. Qed.
Lemma same_tip up l l' : Forall2 same_upper l l' -> tip_size up l' = tip_size up l.
Proof. intros HF. destruct up; [|reflexivity]. inversion HF as [|? ? ? ? (HH & _) _]; subst; cbn; auto. Qed.
(** after the block that the arrow points to has been solved, the hint [start] is not looked at any more *)
Lemma ltsolve_loop_start (up : bool) e nb s s' ds : forall ss n (M : rblk), @arrow_ltsolve_loop Rops up s e false nb ds ss n M = @arrow_ltsolve_loop Rops up s' e false nb ds ss n M.
Proof.
  induction ds as [|D ds IH]; intros ss n M; [reflexivity|]. destruct ss as [|X ss]; [reflexivity|]. cbn [arrow_ltsolve_loop andb]. destruct ((brow D =? bcol D) && (n + brow D <=? brow M))%nat; [|reflexivity]. cbn [guard]. cbv zeta.
  set (M0 := guard _ _). destruct M0 as [M1|]; [|reflexivity]. cbn [bind]. set (M2 := if (n <=? e)%nat then _ else _). destruct M2 as [M3|]; [|reflexivity]. cbn [bind]. apply IH.
Qed.
Lemma ltsolve_start (up : bool) (diag side : list rblk) (M : rblk) s s' ds Db : arrow_split up diag = Some (ds, Db) -> (0 < brow Db)%nat -> (0 < brow M)%nat ->
  @arrow_ltsolve_ Rops up diag side M s (brow M) = @arrow_ltsolve_ Rops up diag side M s' (brow M).
Proof.
  intros E HD HM. unfold arrow_ltsolve_. rewrite E. cbv zeta. destruct ((brow Db <=? brow M) && (brow Db =? bcol Db))%nat; [|reflexivity]. cbn [guard].
  rewrite (proj2 (Nat.ltb_lt (brow M - brow Db) (brow M))) by lia. set (t := guard _ _). destruct t as [[M1 z]|] eqn:Et; [|reflexivity]. cbn [bind fst snd].
  assert (z = false) as ->; [|apply ltsolve_loop_start]. subst t. revert Et. unfold guard. destruct (_ <=? _)%nat; [|discriminate]. destruct (rows_solve_t _ _ _ _); cbn [bind]; [congruence|discriminate].
Qed.
(** "Block down arrow LLT" hands [j] over as [start], not as [end] (finding 36): any value gives the same result *)
Theorem C77_start_ignored : forall (up : bool) (diag side : list rblk) (V : rblk) (s s' : nat),
  (forall T, (if up then hd_error diag else nth_error diag (length diag - 1)) = Some T -> (0 < brow T)%nat) -> (0 < brow V)%nat ->
  blockArrowLTransposeSolve diag side up V s None = blockArrowLTransposeSolve diag side up V s' None.
Proof.
  intros up diag side V s s' HT HV. unfold blockArrowLTransposeSolve. cbv zeta. destruct diag as [|D ds].
  - destruct up; reflexivity.
  - assert (EX : exists l Db, arrow_split up (D :: ds) = Some (l, Db) /\ (0 < brow Db)%nat).
    { destruct up; cbn [arrow_split]; eexists; eexists; (split; [reflexivity|]); apply HT; [reflexivity|apply nth_error_last]. }
    destruct EX as (l & Db & E1 & E2). destruct up; rewrite (ltsolve_start _ _ _ _ s s' l Db E1 E2 HV); reflexivity.
Qed.

(** blockArrowLLTTest.cpp: the decomposition succeeds; for an arrow pointing down the matrix holding the blocks ends up equal to
    the dense decomposition of its copy, upper half included; for an arrow pointing up, its three corners are those of the
    dense decomposition of P^T H P; the solves, with or without hints, return the solutions of the dense systems, and both
    solves in a row the solution of H X = V. *)
Theorem C77_arrow_test : forall (up : bool) sizes d A isz, sizes <> [] -> isz 0 = true -> blockDiagAndOneColDiagRandom sizes up d = Ok A -> columns_independent (list_sum sizes) A ->
  let n := list_sum sizes in let H := mul_tA n A in let n0 := if up then nth 0 sizes 0%nat else 0%nat in
  let P := fun i => if (i <? n - n0)%nat then (n0 + i)%nat else (i - (n - n0))%nat in
  exists dl sl L2, blockArrowLLT (pack_diag sizes H) (pack_side up sizes H) up = Ok (true, dl, sl) /\ llt n (fun i j => H (P i) (P j)) = (None, L2) /\
    (let W := write_back H (diag_places sizes dl ++ side_places up sizes sl) in
     if up then (forall i j, (i < n - n0)%nat -> (j < n - n0)%nat -> W (n0 + i)%nat (n0 + j)%nat = L2 i j) /\
                (forall i j, (i < n0)%nat -> (j < n0)%nat -> W i j = L2 (n - n0 + i)%nat (n - n0 + j)%nat) /\
                (forall i j, (i < n - n0)%nat -> (j < n0)%nat -> W (n0 + i)%nat j = L2 (n - n0 + j)%nat i)
     else forall i j, (i < n)%nat -> (j < n)%nat -> W i j = L2 i j) /\
    (forall V s e, brow V = n -> zero_before s V -> zero_from e V -> (up = true -> n0 = last sizes 0%nat) ->
       exists X, @blockArrowLSolve Rops isz dl sl up V s e = Ok X /\ solves n (lower L2) X (Bk (brow V) (bcol V) (fun i j => bm V (P i) j))) /\
    (forall V s e, brow V = n -> zero_before s V -> zero_from e V ->
       exists X, @blockArrowLTransposeSolve Rops dl sl up V s e = Ok X /\ solves_t n (lower L2) (Bk (brow X) (bcol X) (fun i j => bm X (P i) j)) V) /\
    (forall V s e, brow V = n -> zero_before s V -> zero_from e V -> (up = true -> n0 = last sizes 0%nat) ->
       exists Y X, @blockArrowLSolve Rops isz dl sl up V s e = Ok Y /\ @blockArrowLTransposeSolve Rops dl sl up Y 0 None = Ok X /\ solves n H X V).
Proof.
  intros up ns d A isz Hn Hz E HI n H n0 P. set (t := if up then BlockArrowUp else BlockArrowDown).
  assert (Ed : draw t ns d = Ok A) by (subst t; destruct up; exact E). assert (Et : up_of t = up) by (subst t; destruct up; reflexivity).
  assert (EG : gram t n A = H) by (subst t; destruct up; reflexivity). assert (ES : pack_off_diag t ns H = pack_side up ns H) by (subst t; destruct up; reflexivity).
  pose proof (gram_low _ ns d A Hn Ed) as HL. pose proof (tri_ok_pack _ ns d A Hn Ed) as HO. cbv zeta in HO. fold n in HL, HO. rewrite EG in HL, HO. rewrite ES, Et in HO.
  assert (O12 : arrow_ok up (pack_diag ns H) (pack_side up ns H) /\ arrow_half up (pack_diag ns H) (pack_side up ns H) H) by (subst t; destruct up; exact HO). destruct O12 as [O1 O2].
  assert (HS : symmetric n H) by apply mul_tA_sym. assert (HP : posdef n H) by (rewrite <- EG; apply gram_posdef_iff; subst t; destruct up; exact HI).
  assert (ET : total (pack_diag ns H) = n) by apply pack_total.
  destruct (C21_arrow_cholesky up _ _ H O1 O2) as (ok & dl & sl & F1 & F2 & F3 & F4 & F5); [rewrite ET; exact HS|]. rewrite ET in F5. destruct (F5 HP) as [-> F6].
  assert (ET' : total dl = n) by (rewrite <- ET; apply same_upper_total; auto).
  assert (TP : tip_size up (pack_diag ns H) = n0) by (apply (tip_pack up ns H Hn)). assert (TP' : tip_size up dl = n0) by (rewrite <- TP; apply same_tip; exact F3).
  assert (Hn0 : (n0 <= n)%nat) by (rewrite <- TP, <- ET; apply tip_le).
  destruct (lower_half_exists_arrow _ _ (ordered_ok up dl sl F2)) as (Lm & L1 & L3). rewrite ordered_total, ET' in L3. specialize (F6 Lm L1 L3).
  assert (EP : permuted up (pack_diag ns H) H = fun i j => H (P i) (P j)) by (unfold permuted; rewrite TP, ET; reflexivity). rewrite EP in F6.
  assert (Plt : forall i, (i < n)%nat -> (P i < n)%nat) by (intros i Hi; subst P; cbv beta; destruct (Nat.ltb_spec i (n - n0)); lia).
  destruct (dense_factor n (fun i j => H (P i) (P j))) as (L2 & D1 & D2 & D3 & D4 & D5); [intros i j Hi Hj; apply HS; auto|apply (proj1 (posdef_perm n n0 H Hn0)); exact HP|].
  pose proof (D5 Lm L3 F6) as EE. destruct (lm_lower n L2 Lm D3 EE L3) as (G1 & G2 & G3).
  assert (EL : forall i j, (i < n)%nat -> (j <= i)%nat -> Lm i j = L2 i j) by (intros i j Hi Hj; rewrite EE by lia; unfold lower; rewrite (proj2 (Nat.leb_le _ _) Hj); reflexivity).
  assert (TF : (up = true -> n0 = last ns 0%nat) -> tip_fits up dl).
  { intros HT Hu D1' D2' E1 E2. destruct (upper_pack _ _ _ F3) as (UL & UD). rewrite UL in E2. assert (0 < length ns)%nat by (destruct ns; [congruence|cbn; lia]).
    destruct (UD 0%nat ltac:(lia)) as (K1 & K2 & _). destruct (UD (length ns - 1)%nat ltac:(lia)) as (K3 & K4 & _). rewrite E1 in K1. rewrite E2 in K3. injection K1 as ->. injection K3 as ->. rewrite K2, K4, <- last_nth, <- (HT Hu). unfold n0. rewrite Hu. reflexivity. }
  assert (HZ : forall k k' i j, in_blocks ns k k' i j -> (k' < k)%nat -> (if up then (0 < k')%nat else (k < length ns - 1)%nat) -> entry ns H k k' i j = 0).
  { intros k k' i j HB Hk HC. apply HL; auto. subst t. destruct up; cbn [stored]; [lia|]. destruct HB as (HB & _). lia. }
  exists dl, sl, L2. split; [exact F1|]. split; [exact D1|]. split; [|split; [|split]].
  - cbv zeta. destruct up.
    + destruct dl as [|Db ds]; [destruct F2 as [F2 _]; cbn in F2; lia|]. pose proof (arrow_half_view Db ds sl Lm F2 L1) as HV. change (tip_size true (Db :: ds)) with (brow Db) in TP'. cbn [total] in ET'. rewrite TP' in HV. replace (total ds) with (n - n0)%nat in HV by lia.
      pose proof (write_arrow true ns H _ _ _ Hn F3 F4 HZ HV) as HW. fold n in HW. split; [|split].
      * intros i j Hi Hj. rewrite HW by lia. unfold view. rewrite !(proj2 (Nat.ltb_ge _ _)) by lia. replace (n0 + i - n0)%nat with i by lia. replace (n0 + j - n0)%nat with j by lia.
        destruct (Nat.leb_spec (n0 + j) (n0 + i)) as [Hji|Hji]; [apply EL; lia|]. rewrite D4 by lia. subst P. cbv beta. rewrite !(proj2 (Nat.ltb_lt _ _)) by lia. reflexivity.
      * intros i j Hi Hj. rewrite HW by lia. unfold view. rewrite (proj2 (Nat.ltb_lt i n0)) by lia.
        destruct (Nat.leb_spec j i) as [Hji|Hji]; [apply EL; lia|]. rewrite D4 by lia. subst P. cbv beta. rewrite !(proj2 (Nat.ltb_ge _ _)) by lia. f_equal; lia.
      * intros i j Hi Hj. rewrite HW by lia. unfold view. rewrite (proj2 (Nat.ltb_ge (n0 + i) n0)) by lia. rewrite (proj2 (Nat.ltb_lt j n0)) by lia. rewrite (proj2 (Nat.leb_le j (n0 + i))) by lia. replace (n0 + i - n0)%nat with i by lia. apply EL; lia.
    + intros i j Hi Hj. cbn [ordered bottom] in L1. rewrite (write_arrow false ns H dl sl Lm Hn F3 F4 HZ L1) by auto. destruct (Nat.leb_spec j i) as [Hji|Hji]; [apply EL; auto|].
      rewrite D4 by auto. subst P n0. cbv beta. rewrite Nat.sub_0_r. rewrite !(proj2 (Nat.ltb_lt _ _)) by auto. reflexivity.
  - intros V s e HV Z1 Z2 HT. destruct (C21_arrow_solve isz up dl sl Lm V s e Hz F2 L1) as (X & X1 & X2); rewrite ?ET'; auto. rewrite ET', TP' in X2. unfold rows_perm in X2. rewrite HV in X2. exists X. split; [exact X1|]. apply G2. rewrite HV. exact X2.
  - intros V s e HV Z1 Z2. destruct (C21_arrow_transpose_solve up dl sl Lm V s e F2 L1) as (X & X1 & X2); rewrite ?ET'; auto. rewrite ET', TP' in X2. exists X. split; [exact X1|]. apply G3.
    assert (EX : brow X = n) by (destruct X2 as [X2 _]; cbn [rows_perm brow] in X2; congruence). unfold rows_perm in X2. rewrite EX in *. exact X2.
  - intros V s e HV Z1 Z2 HT. destruct (C21_arrow_system isz up _ _ H V s e Hz O1 O2) as (dl' & sl' & Y & X & X1 & X2 & X3 & X4); rewrite ?ET; auto.
    + intros Hu D1' D2' E1 E2. rewrite pack_length in E2. apply nth_error_tab in E1 as [_ ->]. apply nth_error_tab in E2 as [_ ->]. cbn [brow block_at]. rewrite <- last_nth, <- (HT Hu). unfold n0. rewrite Hu. reflexivity.
    + rewrite F1 in X1. injection X1 as <- <-. rewrite ET in X4. exists Y, X. auto.
Qed.

(** ** The scan of the matrix of constraints *)
(** [ms] : the number of constraints of each block.  If C is block diagonal with blocks of [nDofs] rows, has no zero column and
    every block has a constraint, the loop finds these numbers. *)
Theorem C77_scan : forall (ms : list nat) (nDofs : nat) (C : rmat),
  (forall k k' i t, (k < length ms)%nat -> (k' < length ms)%nat -> (i < nDofs)%nat -> (t < nth k' ms 0)%nat -> k <> k' -> C (k * nDofs + i)%nat (start ms k' + t)%nat = 0) ->
  (forall k t, (k < length ms)%nat -> (t < nth k ms 0)%nat -> exists i, (i < nDofs)%nat /\ C (k * nDofs + i)%nat (start ms k + t)%nat <> 0) ->
  (forall m, In m ms -> (0 < m)%nat) ->
  scan C (length ms * nDofs) (list_sum ms) nDofs = Ok ms.
Proof.
  intros ms nD C HZ HN HP. unfold scan. apply (scan_blocks C (length ms * nD)%nat nD ms 0 []); auto. intros k t Hk Ht. cbn [length Nat.add].
  destruct (HN k t Hk Ht) as (i & Hi & Hc). destruct (first_nz_spec C (length ms * nD) (start ms k + t) (S (length ms * nD)) 0) as (r & E & Hr & Hrc); [lia|exists (k * nD + i)%nat; split; [nia|exact Hc]|].
  exists r. split; [exact E|]. assert (HnD : (nD <> 0)%nat) by lia. pose proof (Nat.div_mod r nD HnD) as DM. pose proof (Nat.mod_upper_bound r nD HnD) as MB.
  assert (Hq : (r / nD < length ms)%nat) by nia. destruct (Nat.eq_dec (r / nD) k) as [Eq|Ne]; [rewrite Eq in DM; nia|].
  exfalso. apply Hrc. specialize (HZ (r / nD)%nat k (r mod nD) t Hq Hk MB Ht Ne). rewrite (Nat.mul_comm (r / nD) nD) in HZ. rewrite <- DM in HZ. exact HZ.
Qed.
(** Finding 37: with a block without constraint the loop returns wrong numbers; with a column of zeros it reads past the column *)
Theorem C77_scan_gaps :
  (exists (ms : list nat) (C : rmat) nb, (forall k k' i t, (k < length ms)%nat -> (k' < length ms)%nat -> (i < 1)%nat -> (t < nth k' ms 0)%nat -> k <> k' -> C (k * 1 + i)%nat (start ms k' + t)%nat = 0) /\
     (forall k t, (k < length ms)%nat -> (t < nth k ms 0)%nat -> exists i, (i < 1)%nat /\ C (k * 1 + i)%nat (start ms k + t)%nat <> 0) /\
     scan C (length ms * 1) (list_sum ms) 1 = Ok nb /\ length nb <> length ms) /\
  (forall C rows cols nDofs c, (c < cols)%nat -> (forall i, (i < rows)%nat -> C i c = 0) -> scan C rows cols nDofs = UB).
Proof.
  split.
  - exists [1; 0; 1]%nat, (fun i j => if (i =? 0)%nat && (j =? 0)%nat || (i =? 2)%nat && (j =? 1)%nat then 1 else 0), [1; 1]%nat. split; [|split; [|split]].
    + intros k k' i t Hk Hk' Hi Ht Hne. cbn in Hk, Hk'. assert (i = 0)%nat as -> by lia. destruct k as [|[|[|k]]]; try lia; destruct k' as [|[|[|k']]]; cbn in Ht; try lia; assert (t = 0)%nat as -> by lia; cbn; try reflexivity; congruence.
    + intros k t Hk Ht. cbn in Hk. exists 0%nat. split; [lia|]. destruct k as [|[|[|k]]]; cbn in Ht; try lia; assert (t = 0)%nat as -> by lia; cbn; lra.
    + cbn. unfold Reqb. repeat (destruct (Req_EM_T _ _); try lra). cbn. repeat (destruct (Req_EM_T _ _); try lra). cbn. repeat (destruct (Req_EM_T _ _); try lra). reflexivity.
    + cbn. lia.
  - intros C rows cols nD c Hc HZ. unfold scan.
    assert (FN : forall fuel j, first_nz C rows c j fuel = UB).
    { induction fuel as [|f IH]; intros j; cbn [first_nz]; unfold guard; destruct (Nat.ltb_spec j rows) as [Hj|Hj]; auto. destruct (Reqb_spec (C j c) 0) as [E|E]; [apply IH|exfalso; apply E; apply HZ; lia]. }
    assert (K : forall cnt i nb, (i <= c < i + cnt)%nat -> scan_loop C rows nD i cnt nb = UB).
    { induction cnt as [|cnt IH]; intros i nb Hi; [lia|]. cbn [scan_loop]. destruct (Nat.eq_dec i c) as [->|Hne]; [rewrite FN; reflexivity|]. destruct (first_nz C rows i 0 (S rows)); [|reflexivity]. cbn [bind]. apply IH. lia. }
    apply K. lia.
Qed.

(** ** The hypotheses are met *)
(** the identity can be drawn, for every list of sizes and every type: the decompositions are not about an empty set of draws *)
Definition identity : rmat := fun i j => if (i =? j)%nat then 1 else 0.
Lemma identity_sum n v t : (t < n)%nat -> rsum n (fun i => (if (i =? t)%nat then 1 else 0) * v i) = v t.
Proof. intros Ht. rewrite <- (sum_delta n t v Ht). apply sum_ext. intros i Hi. destruct (i =? t)%nat; lra. Qed.
Theorem C77_nonvacuous : forall t sizes, sizes <> [] -> exists d A, draw t sizes d = Ok A /\ nonsingular t (list_sum sizes) A.
Proof.
  intros t ns Hn. assert (Off : forall k k' i j, in_blocks ns k k' i j -> k <> k' -> entry ns identity k k' i j = 0).
  { intros k k' i j (Hk & Hk' & Hi & Hj) Hne. unfold entry, identity. destruct (Nat.eqb_spec (start ns k + i) (start ns k' + j)) as [E|E]; [|reflexivity]. exfalso. destruct (place_inj ns k i k' j Hk Hi Hk' Hj E). auto. }
  destruct (C77_every_matrix t ns identity Hn) as (d & A & E & HA); [destruct t; intros k k' i j HB H1 H2; apply Off; auto|].
  exists d, A. split; [exact E|]. unfold nonsingular, rows_independent, columns_independent. destruct t; intros v Hv i Hi; refine (eq_trans (eq_sym (identity_sum (list_sum ns) v i Hi)) (eq_trans _ (Hv i Hi))); apply sum_ext; intros j Hj; rewrite HA by auto; unfold identity; try rewrite (Nat.eqb_sym i j); reflexivity.
Qed.

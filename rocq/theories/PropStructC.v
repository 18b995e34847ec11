(** C24: a StructuredC behaves as the dense block-diagonal matrix of its blocks. *)
From Coq Require Import List Arith ZArith Lia Bool Reals Lra.
From Verif Require Import Base Num Solver LinAlg Block Ortho OrthoProofs StructC.
Import ListNotations.
Local Open Scope R_scope.
Notation rblk := (blk Rops).

(** ** Specification *)
Definition sum_list (l : list nat) : nat := fold_right Nat.add 0%nat l.
(** number of rows (columns) of the first [k] blocks *)
Definition row_off {O : ops} (C : list (blk O)) (k : nat) : nat := sum_list (map brow (firstn k C)).
Definition col_off {O : ops} (C : list (blk O)) (k : nat) : nat := sum_list (map bcol (firstn k C)).
Definition rows_of {O : ops} (C : list (blk O)) : nat := sum_list (map brow C).
Definition cols_of {O : ops} (C : list (blk O)) : nat := sum_list (map bcol C).
(** [M] is the block-diagonal matrix diag(C_0, C_1, ...) *)
Definition block_diagonal (C : list rblk) (M : nat -> nat -> R) : Prop :=
  (forall k D i j, nth_error C k = Some D -> (i < brow D)%nat -> (j < bcol D)%nat -> M (row_off C k + i)%nat (col_off C k + j)%nat = bm D i j) /\
  (forall k k' D D' i j, nth_error C k = Some D -> nth_error C k' = Some D' -> k <> k' -> (i < brow D)%nat -> (j < bcol D')%nat ->
     M (row_off C k + i)%nat (col_off C k' + j)%nat = 0).

(** ** The tables built by the constructor *)
Fixpoint tbl {O : ops} (a : nat) (C : list (blk O)) : list nat := match C with [] => [] | D :: C' => repeat a (bcol D) ++ tbl (a + 1) C' end.
Fixpoint cums {O : ops} (f : blk O -> nat) (n : nat) (C : list (blk O)) : list nat := match C with [] => [] | D :: C' => n :: cums f (n + f D) C' end.
Lemma stc_loop_spec {O : ops} (C : list (blk O)) : forall s : structC O, stc_loop C s =
  StC (c_diag s ++ C) (c_cumVar s ++ cums brow (c_nbVar s) C) (c_cumCstr s ++ cums bcol (c_nbCstr s) C) (c_toBlock s ++ tbl (length (c_diag s)) C) (c_nbVar s + rows_of C) (c_nbCstr s + cols_of C).
Proof.
  induction C as [|D C IH]; intros s; cbn [stc_loop cums tbl].
  - rewrite !app_nil_r. unfold rows_of, cols_of. cbn. rewrite !Nat.add_0_r. destruct s; reflexivity.
  - rewrite IH. cbn [c_diag c_cumVar c_cumCstr c_toBlock c_nbVar c_nbCstr]. rewrite <- !app_assoc. rewrite app_length. cbn [length app]. unfold rows_of, cols_of. cbn [map sum_list fold_right].
    f_equal; unfold sum_list; lia.
Qed.
Lemma stc_new_spec {O : ops} (C : list (blk O)) : stc_new C = StC C (cums brow 0 C ++ [rows_of C]) (cums bcol 0 C ++ [cols_of C]) (tbl 0 C) (rows_of C) (cols_of C).
Proof. unfold stc_new. rewrite stc_loop_spec. reflexivity. Qed.
Lemma cums_nth {O : ops} f (C : list (blk O)) : forall n k D l, nth_error C k = Some D -> nth_error (cums f n C ++ l) k = Some (n + sum_list (map f (firstn k C)))%nat.
Proof.
  induction C as [|E C IH]; intros n [|k] D l H; try discriminate; cbn in H; cbn [cums app nth_error firstn map sum_list fold_right].
  - rewrite Nat.add_0_r. reflexivity.
  - rewrite (IH (n + f E)%nat k D l H). f_equal. unfold sum_list. cbn. lia.
Qed.
Lemma tbl_nth {O : ops} (C : list (blk O)) : forall a k D j, nth_error C k = Some D -> (j < bcol D)%nat -> nth_error (tbl a C) (col_off C k + j) = Some (a + k)%nat.
Proof.
  induction C as [|E C IH]; intros a [|k] D j H Hj; try discriminate; cbn in H; cbn [tbl].
  - injection H as ->. cbn [col_off firstn map sum_list fold_right Nat.add]. rewrite nth_error_app1 by (rewrite repeat_length; auto). rewrite nth_error_repeat by auto. f_equal. lia.
  - replace (col_off (E :: C) (S k)) with (bcol E + col_off C k)%nat by reflexivity. rewrite nth_error_app2 by (rewrite repeat_length; lia). rewrite repeat_length.
    replace (bcol E + col_off C k + j - bcol E)%nat with (col_off C k + j)%nat by lia. rewrite (IH (a + 1)%nat k D j H Hj). f_equal. lia.
Qed.
Lemma col_locate {O : ops} (C : list (blk O)) : forall i, (i < cols_of C)%nat -> exists k D j, nth_error C k = Some D /\ (j < bcol D)%nat /\ i = (col_off C k + j)%nat.
Proof.
  induction C as [|E C IH]; intros i Hi; [unfold cols_of in Hi; cbn in Hi; lia|]. replace (cols_of (E :: C)) with (bcol E + cols_of C)%nat in Hi by reflexivity.
  destruct (Nat.lt_ge_cases i (bcol E)) as [H|H].
  - exists 0%nat, E, i. auto.
  - destruct (IH (i - bcol E)%nat ltac:(lia)) as (k & D & j & H1 & H2 & H3). exists (S k), D, j. split; [exact H1|]. split; [exact H2|]. replace (col_off (E :: C) (S k)) with (bcol E + col_off C k)%nat by reflexivity. lia.
Qed.
Lemma row_locate {O : ops} (C : list (blk O)) : forall i, (i < rows_of C)%nat -> exists k D j, nth_error C k = Some D /\ (j < brow D)%nat /\ i = (row_off C k + j)%nat.
Proof.
  induction C as [|E C IH]; intros i Hi; [unfold rows_of in Hi; cbn in Hi; lia|]. replace (rows_of (E :: C)) with (brow E + rows_of C)%nat in Hi by reflexivity.
  destruct (Nat.lt_ge_cases i (brow E)) as [H|H].
  - exists 0%nat, E, i. auto.
  - destruct (IH (i - brow E)%nat ltac:(lia)) as (k & D & j & H1 & H2 & H3). exists (S k), D, j. split; [exact H1|]. split; [exact H2|]. replace (row_off (E :: C) (S k)) with (brow E + row_off C k)%nat by reflexivity. lia.
Qed.
Lemma off_end {O : ops} (f : blk O -> nat) (C : list (blk O)) : forall k D, nth_error C k = Some D -> (sum_list (map f (firstn k C)) + f D <= sum_list (map f C))%nat.
Proof.
  induction C as [|E C IH]; intros [|k] D H; try discriminate; cbn in H; cbn [firstn map sum_list fold_right]; [injection H as ->; lia|]. specialize (IH k D H). unfold sum_list in *. lia.
Qed.
Lemma off_order {O : ops} (f : blk O -> nat) (C : list (blk O)) : forall k k' D, nth_error C k = Some D -> (k < k')%nat -> (sum_list (map f (firstn k C)) + f D <= sum_list (map f (firstn k' C)))%nat.
Proof.
  induction C as [|E C IH]; intros [|k] [|k'] D H Hk; try discriminate; try lia; cbn in H; cbn [firstn map sum_list fold_right]; [injection H as ->; lia|]. specialize (IH k k' D H). unfold sum_list in *. lia.
Qed.

(** ** C24 *)
Lemma at_Ok {X} (l : list X) i x : nth_error l i = Some x -> at_ l i = Ok x.
Proof. unfold at_. intros ->. reflexivity. Qed.
Lemma stc_col_eq {O : ops} (C : list (blk O)) k D j : nth_error C k = Some D -> (j < bcol D)%nat -> stc_col (stc_new C) (col_off C k + j) = Ok (NZ (row_off C k) (brow D) (rows_of C) (fun r => bm D r j)).
Proof.
  intros H Hj. rewrite stc_new_spec. unfold stc_col. cbn [c_nbCstr c_toBlock c_diag c_cumCstr c_cumVar c_nbVar].
  pose proof (off_end bcol C k D H) as H1. pose proof (off_end brow C k D H) as H2. fold (col_off C k) in H1. fold (cols_of C) in H1. fold (row_off C k) in H2. fold (rows_of C) in H2.
  rewrite (proj2 (Nat.ltb_lt _ _)) by lia. cbn [guard]. rewrite (at_Ok _ _ _ (tbl_nth C 0 k D j H Hj)). cbn [bind Nat.add]. rewrite (at_Ok _ _ _ H). cbn [bind].
  rewrite (at_Ok _ _ _ (cums_nth bcol C 0 k D _ H)). cbn [bind Nat.add]. rewrite (at_Ok _ _ _ (cums_nth brow C 0 k D _ H)). cbn [bind Nat.add]. fold (col_off C k). fold (row_off C k).
  rewrite (proj2 (Nat.leb_le _ _)) by lia. replace (col_off C k + j - col_off C k)%nat with j by lia. rewrite (proj2 (Nat.ltb_lt _ _)) by auto. cbn [andb guard]. unfold snz_new. rewrite (proj2 (Nat.leb_le _ _)) by lia. reflexivity.
Qed.
(** Column i of the dense matrix as the segment [off, off+len) *)
Lemma block_col C M k D j r : block_diagonal C M -> nth_error C k = Some D -> (j < bcol D)%nat -> (r < rows_of C)%nat ->
  M r (col_off C k + j)%nat = if (row_off C k <=? r)%nat && (r <? row_off C k + brow D)%nat then bm D (r - row_off C k)%nat j else 0.
Proof.
  intros [H1 H2] HD Hj Hr. destruct (row_locate C r Hr) as (k' & D' & i & HD' & Hi & ->). destruct (Nat.eq_dec k k') as [<-|Hne].
  - rewrite HD in HD'. injection HD' as <-. rewrite (proj2 (Nat.leb_le _ _)) by lia. rewrite (proj2 (Nat.ltb_lt _ _)) by lia. cbn [andb]. rewrite (H1 k D i j) by auto. f_equal. lia.
  - rewrite (H2 k' k D' D i j) by auto. assert (Hout : (row_off C k <=? row_off C k' + i)%nat && (row_off C k' + i <? row_off C k + brow D)%nat = false); [|rewrite Hout; reflexivity].
    apply andb_false_iff. rewrite Nat.leb_gt, Nat.ltb_ge. destruct (Nat.lt_ge_cases k k') as [Hl|Hl].
    + right. pose proof (off_order brow C k k' D HD Hl). unfold row_off. lia.
    + left. pose proof (off_order brow C k' k D' HD' ltac:(lia)). unfold row_off. lia.
Qed.
(** sizes *)
Theorem C24_sizes (C : list rblk) : c_nbVar (@stc_new Rops C) = rows_of C /\ c_nbCstr (@stc_new Rops C) = cols_of C.
Proof. rewrite stc_new_spec. split; reflexivity. Qed.
(** col(i): defined exactly for the columns of the matrix; its expansion and its dot products are those of the dense column *)
Theorem C24_col C M : block_diagonal C M ->
  (forall i, (i < cols_of C)%nat -> exists z, @stc_col Rops (stc_new C) i = Ok z /\
     (forall u, exists d, toFullVector z (rows_of C) u = Ok d /\ forall r, (r < rows_of C)%nat -> d r = M r i) /\
     (forall u, snz_dot z (rows_of C) u = Ok (rsum (rows_of C) (fun r => M r i * u r)))) /\
  (forall i, (cols_of C <= i)%nat -> @stc_col Rops (stc_new C) i = UB).
Proof.
  intros HM. split.
  - intros i Hi. destruct (col_locate C i Hi) as (k & D & j & HD & Hj & ->). exists (NZ (row_off C k) (brow D) (rows_of C) (fun r => bm D r j)). split; [apply stc_col_eq; auto|].
    pose proof (off_end brow C k D HD) as Hend. fold (row_off C k) in Hend. fold (rows_of C) in Hend. split.
    + intros u. unfold toFullVector. cbn [z_size]. rewrite Nat.eqb_refl. cbn [guard]. eexists. split; [reflexivity|]. intros r Hr. rewrite vm_id. rewrite (block_col C M k D j r) by auto. unfold z_end. cbn [z_start z_len z_size z_v].
      destruct (Nat.ltb_spec r (row_off C k)); [rewrite (proj2 (Nat.leb_gt _ _)) by auto; reflexivity|]. rewrite (proj2 (Nat.leb_le _ _)) by auto. cbn [andb].
      destruct (Nat.ltb_spec r (row_off C k + brow D)); [reflexivity|]. rewrite (proj2 (Nat.ltb_lt _ _)) by auto. reflexivity.
    + intros u. unfold snz_dot. cbn [z_size z_len z_start z_v]. rewrite Nat.eqb_refl. cbn [guard]. f_equal. rops.
      rewrite (sum_ext (rows_of C) _ (fun r => if (row_off C k <=? r)%nat && (r <? row_off C k + brow D)%nat then bm D (r - row_off C k)%nat j * u r else 0)).
      2:{ intros r Hr. rewrite (block_col C M k D j r) by auto. destruct ((row_off C k <=? r)%nat && _); ring. }
      set (a := row_off C k) in *. replace (rows_of C) with (a + (brow D + (rows_of C - a - brow D)))%nat by lia. rewrite sum_app, sum_app. rewrite (sum_zero a), (sum_zero (rows_of C - a - brow D)).
      * rewrite Rplus_0_r, Rplus_0_l. apply sum_ext. intros t Ht. rewrite (proj2 (Nat.leb_le _ _)) by lia. rewrite (proj2 (Nat.ltb_lt _ _)) by lia. cbn [andb]. do 2 f_equal. lia.
      * intros t Ht. rewrite (proj2 (Nat.ltb_ge _ _)) by lia. rewrite andb_false_r. reflexivity.
      * intros t Ht. rewrite (proj2 (Nat.leb_gt _ _)) by lia. reflexivity.
  - intros i Hi. rewrite stc_new_spec. unfold stc_col. cbn [c_nbCstr]. rewrite (proj2 (Nat.ltb_ge _ _)) by auto. reflexivity.
Qed.
Lemma tmult_spec (C : list rblk) u osize : osize = cols_of C -> forall ds k out, (forall j D, nth_error ds j = Some D -> nth_error C (k + j) = Some D) -> (k + length ds = length C)%nat ->
  exists w, @tmult_loop Rops ds k (stc_new C) osize out (rows_of C) u = Ok w /\
    (forall i, (i < col_off C k)%nat -> w i = out i) /\
    (forall k' D j, (k <= k')%nat -> nth_error C k' = Some D -> (j < bcol D)%nat -> w (col_off C k' + j)%nat = rsum (brow D) (fun t => bm D t j * u (row_off C k' + t)%nat)).
Proof.
  intros Hos. induction ds as [|D ds IH]; intros k out Hnth Hlen; cbn [tmult_loop].
  - exists out. split; [reflexivity|]. split; [auto|]. intros k' D j Hk HD. apply nth_error_Some_lt in HD || (assert (k' < length C)%nat by (apply nth_error_Some; congruence)). cbn in Hlen. lia.
  - assert (HD : nth_error C k = Some D). { rewrite <- (Nat.add_0_r k). apply Hnth. reflexivity. }
    pose proof (off_end bcol C k D HD) as H1. pose proof (off_end brow C k D HD) as H2. fold (col_off C k) in H1. fold (cols_of C) in H1. fold (row_off C k) in H2. fold (rows_of C) in H2.
    assert (E1 : at_ (c_cumCstr (stc_new C)) k = Ok (col_off C k)). { rewrite stc_new_spec. cbn [c_cumCstr]. rewrite (at_Ok _ _ _ (cums_nth bcol C 0 k D _ HD)). reflexivity. }
    assert (E2 : at_ (c_cumVar (stc_new C)) k = Ok (row_off C k)). { rewrite stc_new_spec. cbn [c_cumVar]. rewrite (at_Ok _ _ _ (cums_nth brow C 0 k D _ HD)). reflexivity. }
    rewrite E1, E2. cbn [bind]. rewrite Hos. rewrite (proj2 (Nat.leb_le _ _)) by lia. rewrite (proj2 (Nat.leb_le (row_off C k + brow D) _)) by lia. cbn [andb guard]. rewrite vm_id. rewrite <- Hos.
    match goal with |- context [tmult_loop ds (k + 1) (stc_new C) osize ?o _ u] => set (out' := o) end.
    destruct (IH (k + 1)%nat out') as (w & Ew & Hlow & Hw).
    { intros j D' Hj. replace (k + 1 + j)%nat with (k + S j)%nat by lia. apply Hnth. exact Hj. }
    { cbn in Hlen. lia. }
    assert (Hnext : col_off C (k + 1) = (col_off C k + bcol D)%nat).
    { clear - HD. revert k HD. induction C as [|E C IH]; intros [|k] HD; try discriminate; cbn in HD; [injection HD as ->; unfold col_off; cbn; lia|]. specialize (IH k HD).
      replace (col_off (E :: C) (S k + 1)) with (bcol E + col_off C (k + 1))%nat by reflexivity. replace (col_off (E :: C) (S k)) with (bcol E + col_off C k)%nat by reflexivity. lia. }
    exists w. split; [exact Ew|]. split.
    + intros i Hi. rewrite Hlow by lia. unfold out'. rewrite (proj2 (Nat.leb_gt _ _)) by lia. reflexivity.
    + intros k' D' j Hk' HD' Hj. destruct (Nat.eq_dec k' k) as [->|Hne]; [|apply Hw; auto; lia].
      rewrite HD in HD'. injection HD' as <-. rewrite Hlow by lia. unfold out'. rewrite (proj2 (Nat.leb_le _ _)) by lia. rewrite (proj2 (Nat.ltb_lt _ _)) by lia. cbn [andb]. rops. apply sum_ext. intros t Ht. do 2 f_equal. lia.
Qed.
(** transposeMult(out, in): out = M^T in, whatever out held; the sizes must be those of the matrix *)
Theorem C24_transposeMult C M u out : block_diagonal C M ->
  (exists w, @stc_transposeMult Rops (stc_new C) (cols_of C) out (rows_of C) u = Ok w /\ forall i, (i < cols_of C)%nat -> w i = rsum (rows_of C) (fun r => M r i * u r)) /\
  (forall osize isize, osize <> cols_of C \/ isize <> rows_of C -> @stc_transposeMult Rops (stc_new C) osize out isize u = UB).
Proof.
  intros HM. destruct (C24_sizes C) as [Hv Hc]. split.
  - unfold stc_transposeMult. rewrite Hv, Hc, !Nat.eqb_refl. cbn [andb guard]. assert (Hd : c_diag (@stc_new Rops C) = C) by (rewrite stc_new_spec; reflexivity). rewrite Hd.
    destruct (tmult_spec C u (cols_of C) eq_refl C 0 out) as (w & Ew & _ & Hw); auto. exists w. split; [exact Ew|]. intros i Hi. destruct (col_locate C i Hi) as (k & D & j & HD & Hj & ->).
    rewrite (Hw k D j) by (auto; lia). destruct (C24_col C M HM) as [Hcol _]. destruct (Hcol _ Hi) as (z & Ez & _ & Hdot). rewrite (stc_col_eq C k D j HD Hj) in Ez. injection Ez as <-. specialize (Hdot u).
    unfold snz_dot in Hdot. cbn [z_size z_len z_start z_v] in Hdot. rewrite Nat.eqb_refl in Hdot. cbn [guard] in Hdot. injection Hdot as Hdot. rewrite <- Hdot. reflexivity.
  - intros osize isize H. unfold stc_transposeMult. rewrite Hv, Hc. destruct H as [H|H]; rewrite (proj2 (Nat.eqb_neq _ _) H); [rewrite andb_false_r|]; reflexivity.
Qed.
(** every list of blocks has such a matrix *)
Fixpoint bdiag (C : list rblk) (i j : nat) : R :=
  match C with
  | [] => 0
  | D :: C' => if (i <? brow D)%nat then (if (j <? bcol D)%nat then bm D i j else 0) else if (j <? bcol D)%nat then 0 else bdiag C' (i - brow D) (j - bcol D)
  end.
Lemma bdiag_block_diagonal C : block_diagonal C (bdiag C).
Proof.
  split.
  - induction C as [|E C IH]; intros [|k] D i j H Hi Hj; try discriminate; cbn in H; cbn [bdiag].
    + injection H as ->. cbn [row_off col_off firstn map sum_list fold_right Nat.add]. rewrite (proj2 (Nat.ltb_lt _ _) Hi), (proj2 (Nat.ltb_lt _ _) Hj). reflexivity.
    + replace (row_off (E :: C) (S k)) with (brow E + row_off C k)%nat by reflexivity. replace (col_off (E :: C) (S k)) with (bcol E + col_off C k)%nat by reflexivity.
      rewrite !(proj2 (Nat.ltb_ge _ _)) by lia. rewrite <- (IH k D i j H Hi Hj). f_equal; lia.
  - induction C as [|E C IH]; intros [|k] [|k'] D D' i j H H' Hk Hi Hj; try discriminate; try lia; cbn in H, H'; cbn [bdiag].
    + injection H as ->. replace (col_off (D :: C) (S k')) with (bcol D + col_off C k')%nat by reflexivity. cbn [row_off firstn map sum_list fold_right Nat.add]. rewrite (proj2 (Nat.ltb_lt _ _) Hi). rewrite (proj2 (Nat.ltb_ge _ _)) by lia. reflexivity.
    + injection H' as ->. replace (row_off (D' :: C) (S k)) with (brow D' + row_off C k)%nat by reflexivity. cbn [col_off firstn map sum_list fold_right Nat.add]. rewrite (proj2 (Nat.ltb_ge _ _)) by lia. rewrite (proj2 (Nat.ltb_lt _ _) Hj). reflexivity.
    + replace (row_off (E :: C) (S k)) with (brow E + row_off C k)%nat by reflexivity. replace (col_off (E :: C) (S k')) with (bcol E + col_off C k')%nat by reflexivity.
      rewrite !(proj2 (Nat.ltb_ge _ _)) by lia. rewrite <- (IH k k' D D' i j); auto. f_equal; lia.
Qed.
Example C24_nonvacuous : let C := [Bk 2 1 (fun i _ => INR i + 1); Bk 0 2 (fun _ _ => 0); Bk 1 2 (fun _ j => INR j - 4)] in
  block_diagonal C (bdiag C) /\ rows_of C = 3%nat /\ cols_of C = 5%nat /\ bdiag C 2 4 = -3 /\ bdiag C 1 4 = 0.
Proof. cbv zeta. split; [apply bdiag_block_diagonal|]. split; [reflexivity|]. split; [reflexivity|]. cbn. split; lra. Qed.

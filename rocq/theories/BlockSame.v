(** Non-interference for the block routines: the factorisation and the solves read
    only the lower triangles of the diagonal blocks, the off-diagonal blocks and the
    rows of the right-hand side, for any scalar arithmetic. *)
From Coq Require Import List Arith ZArith Lia Bool.
From Verif Require Import Base ActiveSet ActiveSetProofs Num Solver LinAlg GIBase GISafe GICall GIHist GISame Util Block Ortho StructC StructG.
Import ListNotations.

Section Same.
Variable S : ops.
Notation vec := (vec S).
Notation mat := (mat S).
Notation blk := (blk S).
Notation vagr := (vagr S).
Notation lagr := (lagr S).
Notation uagr := (uagr S).
Notation magr := (magr S).

(** same sizes and same coefficients; same sizes and same lower triangle *)
Definition bagr (M M' : blk) : Prop :=
  brow M = brow M' /\ bcol M = bcol M' /\ forall i j, (i < brow M)%nat -> (j < bcol M)%nat -> bm M i j = bm M' i j.
Definition blagr (D D' : blk) : Prop := brow D = brow D' /\ bcol D = bcol D' /\ lagr (brow D) (bm D) (bm D').

Lemma bagr_refl M : bagr M M. Proof. split; [|split]; auto. Qed.
Lemma blagr_refl M : blagr M M. Proof. split; [|split]; auto. intros i j _ _. reflexivity. Qed.
Lemma lagr_le n m (L L' : mat) : (m <= n)%nat -> lagr n L L' -> lagr m L L'.
Proof. intros H HL i j Hj Hi. apply HL; lia. Qed.
Lemma lagr_shift n s (L L' : mat) : lagr n L L' -> lagr (n - s) (shift s L) (shift s L').
Proof. intros HL i j Hj Hi. unfold shift. apply HL; lia. Qed.
Lemma lagr_tr n (L L' : mat) : lagr n L L' -> uagr n (tr L) (tr L').
Proof. intros HL i j Hj Hi. unfold tr. apply HL; lia. Qed.
Lemma pr_if {A B} (P : A -> B -> Prop) (c : bool) m n m' n' : pr P m m' -> pr P n n' -> pr P (if c then m else n) (if c then m' else n').
Proof. destruct c; auto. Qed.
Lemma pr_ub_l {A B} (P : A -> B -> Prop) m : pr P UB m. Proof. intros a b E. discriminate. Qed.
Lemma pr_ub_r {A B} (P : A -> B -> Prop) m : pr P m UB. Proof. intros a b _ E. discriminate. Qed.

(** ** Factorisation *)
Lemma blk_llt_agr D D' : blagr D D' -> pr (fun r r' => fst r = fst r' /\ blagr (snd r) (snd r')) (blk_llt D) (blk_llt D').
Proof.
  intros (E1 & E2 & H). unfold blk_llt. apply pr_guard. intros Hs _. apply pr_ok. rewrite <- E1, <- E2.
  destruct (llt_lagr S (brow D) (brow D) 0 (bm D) (bm D') (Nat.add_0_l _) H) as [K1 K2]. unfold llt. cbn [fst snd]. split; [rewrite K1; reflexivity|].
  split; [|split]; auto.
Qed.
Lemma solve_right_agr L L' X X' : blagr L L' -> bagr X X' -> pr bagr (solve_right L X) (solve_right L' X').
Proof.
  intros (E1 & E2 & H) (F1 & F2 & K). unfold solve_right. apply pr_guard. intros Hs _. apply andb_true_iff in Hs as [Hs1 Hs2]. apply Nat.eqb_eq in Hs1, Hs2.
  apply pr_ok. split; [|split]; auto. cbn [brow bcol bm]. intros i j Hi Hj. rewrite <- F2. apply (fwd_agr S (bcol X)); auto.
  - apply lagr_le with (brow L); [lia|auto].
  - intros k Hk. apply K; auto.
Qed.
Lemma solve_left_agr L L' X X' : blagr L L' -> bagr X X' -> pr bagr (solve_left L X) (solve_left L' X').
Proof.
  intros (E1 & E2 & H) (F1 & F2 & K). unfold solve_left. apply pr_guard. intros Hs _. apply andb_true_iff in Hs as [Hs1 Hs2]. apply Nat.eqb_eq in Hs1, Hs2.
  apply pr_ok. split; [|split]; auto. cbn [brow bcol bm]. intros i j Hi Hj. rewrite <- F1. apply (fwd_agr S (brow X)); auto.
  - apply lagr_le with (brow L); [lia|auto].
  - intros k Hk. apply K; auto.
Qed.
Lemma rank_agr D D' B B' : blagr D D' -> bagr B B' -> pr blagr (rank_update D B) (rank_update D' B').
Proof.
  intros (E1 & E2 & H) (F1 & F2 & K). unfold rank_update. apply pr_guard. intros Hs _. apply andb_true_iff in Hs as [Hs1 Hs2]. apply Nat.eqb_eq in Hs1, Hs2.
  apply pr_ok. split; [|split]; auto. cbn [brow bcol bm]. intros i j Hj Hi. rewrite (proj2 (Nat.leb_le _ _) Hj), <- F2. rewrite (H i j) by auto.
  apply gsub_ext. intros k Hk. rewrite (K i k), (K j k) by lia. reflexivity.
Qed.
Lemma tblk_agr X X' : bagr X X' -> bagr (tblk X) (tblk X').
Proof. intros (F1 & F2 & K). split; [|split]; auto. cbn. intros i j Hi Hj. apply K; auto. Qed.
Lemma get_B_agr up X X' : bagr X X' -> bagr (get_B up X) (get_B up X').
Proof. destruct up; auto. apply tblk_agr. Qed.

Definition fac (a b : bool * list blk * list blk) : Prop := fst (fst a) = fst (fst b) /\ Forall2 blagr (snd (fst a)) (snd (fst b)) /\ Forall2 bagr (snd a) (snd b).
Lemma tri_llt_agr ss : forall ss' D D' ds ds', Forall2 bagr ss ss' -> blagr D D' -> Forall2 blagr ds ds' -> pr fac (tri_llt_loop D ds ss) (tri_llt_loop D' ds' ss').
Proof.
  induction ss as [|B ss IH]; intros ss' D D' ds ds' HS HD HDs; inversion HS as [|Bh Bh' sst sst' HB0 HS0]; subst; inversion HDs as [|D1 D1' ds1 ds1' H1 H2]; subst; cbn [tri_llt_loop]; try apply pr_ub_l.
  - eapply pr_bind; [apply blk_llt_agr; exact HD|]. intros r r' [E1 E2]. apply pr_ok. split; [cbn; rewrite E1; reflexivity|]. cbn. auto.
  - eapply pr_bind; [apply blk_llt_agr; exact HD|]. intros r r' [E1 E2]. rewrite <- E1. destruct (0 <? fst r)%Z.
    { apply pr_ok. split; [reflexivity|]. cbn. auto. }
    eapply pr_bind; [eapply solve_right_agr; eauto|]. intros Bx Bx' HB. eapply pr_bind; [eapply rank_agr; eauto|]. intros Dx Dx' HDx.
    eapply pr_bind; [eapply IH; eauto|]. intros [[ok dl] bl] [[ok' dl'] bl'] (K1 & K2 & K3). cbn in *. apply pr_ok. split; [exact K1|]. cbn. auto.
Qed.
Definition facA (a b : bool * list blk * list blk * blk) : Prop := fac (fst a) (fst b) /\ blagr (snd a) (snd b).
Lemma arrow_llt_agr up ss : forall ss' ds ds' Db Db', Forall2 bagr ss ss' -> Forall2 blagr ds ds' -> blagr Db Db' -> pr facA (arrow_llt_loop up ds ss Db) (arrow_llt_loop up ds' ss' Db').
Proof.
  induction ss as [|X ss IH]; intros ss' ds ds' Db Db' HS HDs HD; inversion HS as [|Bh Bh' sst sst' HB0 HS0]; subst; inversion HDs as [|D1 D1' ds1 ds1' H1 H2]; subst; cbn [arrow_llt_loop]; try apply pr_ub_l.
  - eapply pr_bind; [apply blk_llt_agr; exact HD|]. intros r r' [E1 E2]. apply pr_ok. split; [split|]; cbn; auto. rewrite E1. reflexivity.
  - eapply pr_bind; [apply blk_llt_agr; exact H1|]. intros r r' [E1 E2]. rewrite <- E1. destruct (0 <? fst r)%Z.
    { apply pr_ok. split; [split|]; cbn; auto. }
    eapply (pr_bind bagr). { destruct up; [eapply solve_left_agr|eapply solve_right_agr]; eauto. }
    intros Bx Bx' HB. eapply pr_bind; [eapply rank_agr; [eauto|apply get_B_agr; eauto]|]. intros Dx Dx' HDx.
    eapply pr_bind; [eapply IH; eauto|]. intros [[[ok dl] bl] db] [[[ok' dl'] bl'] db'] ((K1 & K2 & K3) & K4). cbn in *. apply pr_ok. split; [split|]; cbn; auto.
Qed.
Lemma f2_removelast {A B} (P : A -> B -> Prop) l l' : Forall2 P l l' -> Forall2 P (removelast l) (removelast l').
Proof. induction 1 as [|x y l l' Hx Hl IH]; cbn; auto. inversion Hl; subst; auto. Qed.
Lemma f2_last {A B} (P : A -> B -> Prop) l l' d d' : Forall2 P l l' -> P d d' -> P (last l d) (last l' d').
Proof. intros H Hd. induction H as [|x y l l' Hx Hl IH]; cbn; auto. inversion Hl; subst; auto. Qed.
Lemma f2_length {A B} (P : A -> B -> Prop) l l' : Forall2 P l l' -> length l = length l'.
Proof. induction 1; cbn; congruence. Qed.
Lemma split_agr up l l' : Forall2 blagr l l' ->
  match arrow_split up l, arrow_split up l' with
  | None, None => True
  | Some (ds, D), Some (ds', D') => Forall2 blagr ds ds' /\ blagr D D'
  | _, _ => False
  end.
Proof.
  intros H. destruct H as [|x y l l' Hx Hl]; cbn [arrow_split]; auto. destruct up; [auto|].
  split; [apply f2_removelast; auto|apply f2_last; auto].
Qed.
Lemma f2_hd {A B} (P : A -> B -> Prop) l l' : Forall2 P l l' -> match hd_error l, hd_error l' with Some a, Some b => P a b | None, None => True | _, _ => False end.
Proof. intros []; cbn; auto. Qed.
Lemma f2_tl {A B} (P : A -> B -> Prop) l l' : Forall2 P l l' -> Forall2 P (tl l) (tl l').
Proof. intros []; cbn; auto. Qed.
Lemma f2_rev {A B} (P : A -> B -> Prop) l l' : Forall2 P l l' -> Forall2 P (rev l) (rev l').
Proof. induction 1; cbn; auto. apply Forall2_app; auto. Qed.

Record gagr (G G' : structG S) : Prop := {
  ga_t : g_type G = g_type G'; ga_d : Forall2 blagr (g_diag G) (g_diag G'); ga_o : Forall2 bagr (g_off G) (g_off G'); ga_n : g_n G = g_n G'; ga_dec : g_dec G = g_dec G' }.
Lemma stg_llt_agr G G' : gagr G G' -> pr (fun r r' => fst r = fst r' /\ gagr (snd r) (snd r')) (stg_llt G) (stg_llt G').
Proof.
  intros [H1 H2 H3 H4 H5]. unfold stg_llt. rewrite <- H1.
  assert (HA : forall up, pr fac (blockArrowLLT (g_diag G) (g_off G) up) (blockArrowLLT (g_diag G') (g_off G') up)).
  { intros up. unfold blockArrowLLT. apply pr_guard. intros _ _. pose proof (split_agr up _ _ H2) as HSp.
    destruct (arrow_split up (g_diag G)) as [[ds Db]|], (arrow_split up (g_diag G')) as [[ds' Db']|]; try contradiction; [|apply pr_ub_l].
    destruct HSp as [HS1 HS2]. eapply pr_bind; [eapply arrow_llt_agr; eauto|]. intros [[[ok dl] bl] db] [[[ok' dl'] bl'] db'] ((K1 & K2 & K3) & K4). cbn in *.
    apply pr_ok. split; [exact K1|]. split; cbn; auto. destruct up; cbn; auto. apply Forall2_app; auto. }
  eapply (pr_bind fac).
  - destruct (g_type G); auto. unfold triBlockDiagLLT. apply pr_guard. intros _ _. destruct H2; [apply pr_ub_l|]. apply tri_llt_agr; auto.
  - intros [[ok dl] bl] [[ok' dl'] bl'] (K1 & K2 & K3). cbn in *. apply pr_ok. cbn. split; [exact K1|]. split; cbn; auto.
Qed.

(** ** Solves *)
Section Solves.
Variables nr nc : nat.
Definition mag (M M' : blk) : Prop := bagr M M' /\ brow M = nr /\ bcol M = nc.

Lemma rows_solve_agr a r L L' M M' : lagr r L L' -> mag M M' -> pr mag (rows_solve a r L M) (rows_solve a r L' M').
Proof.
  intros HL ((F1 & F2 & K) & F3 & F4). unfold rows_solve. apply pr_guard. intros Hs _. apply Nat.leb_le in Hs. apply pr_ok. split; [split; [|split]; auto|split; auto]. cbn [brow bcol bm]. intros i j Hi Hj.
  destruct ((a <=? i) && (i <? a + r))%nat eqn:E; [|apply K; auto]. apply andb_true_iff in E as [E1 E2]. apply Nat.leb_le in E1. apply Nat.ltb_lt in E2.
  apply (fwd_agr S r); auto; [|lia]. intros k Hk. apply K; lia.
Qed.
Lemma rows_solve_t_agr a r L L' M M' : lagr r L L' -> mag M M' -> pr mag (rows_solve_t a r L M) (rows_solve_t a r L' M').
Proof.
  intros HL ((F1 & F2 & K) & F3 & F4). unfold rows_solve_t. apply pr_guard. intros Hs _. apply Nat.leb_le in Hs. apply pr_ok. split; [split; [|split]; auto|split; auto]. cbn [brow bcol bm]. intros i j Hi Hj.
  destruct ((a <=? i) && (i <? a + r))%nat eqn:E; [|apply K; auto]. apply andb_true_iff in E as [E1 E2]. apply Nat.leb_le in E1. apply Nat.ltb_lt in E2.
  apply (bwd_agr S r); auto; [apply lagr_tr; auto| |lia]. intros k Hk. apply K; lia.
Qed.
Lemma rows_sub_agr a r (B B' : mat) l k M M' : (forall i t, (i < r)%nat -> (t < k)%nat -> B i t = B' i t) -> mag M M' -> pr mag (rows_sub a r B l k M) (rows_sub a r B' l k M').
Proof.
  intros HB ((F1 & F2 & K) & F3 & F4). unfold rows_sub. apply pr_guard. intros Hs _. apply andb_true_iff in Hs as [Hs1 Hs2]. apply Nat.leb_le in Hs1, Hs2. apply pr_ok. split; [split; [|split]; auto|split; auto]. cbn [brow bcol bm]. intros i j Hi Hj.
  destruct ((a <=? i) && (i <? a + r))%nat eqn:E; [|apply K; auto]. apply andb_true_iff in E as [E1 E2]. apply Nat.leb_le in E1. apply Nat.ltb_lt in E2.
  rewrite (K i j) by auto. apply gsub_ext. intros t Ht. rewrite HB, K by lia. reflexivity.
Qed.
Notation oagr p p' := (match p, p' with Some a, Some b => bagr a b | None, None => True | _, _ => False end).
Definition bz (a b : blk * bool) : Prop := mag (fst a) (fst b) /\ snd a = snd b.

Lemma tri_ls_agr start ds : forall ds' prev prev' ss ss' n l li z M M', Forall2 blagr ds ds' -> oagr prev prev' -> Forall2 bagr ss ss' -> mag M M' ->
  pr mag (tri_lsolve_loop start ds prev ss n l li z M) (tri_lsolve_loop start ds' prev' ss' n l li z M').
Proof.
  induction ds as [|D ds IH]; intros ds' prev prev' ss ss' n l li z M M' HD HP HS HM; inversion HD as [|D0 D' ds0 dt HD0 HDs]; subst; cbn [tri_lsolve_loop].
  - apply pr_guard. intros _ _. apply pr_ok. auto.
  - destruct HD0 as (E1 & E2 & HL). apply pr_guard. intros Hsq _. rewrite <- E1. set (ni := brow D) in *.
    eapply (pr_bind bz).
    + destruct (start <=? n + ni)%nat; [|apply pr_ok; split; auto]. destruct z.
      * apply pr_guard. intros Hr _. apply Nat.leb_le in Hr. eapply pr_bind; [apply rows_solve_agr; [|exact HM]|].
        { replace (n + ni - start)%nat with (ni - (ni - (n + ni - start)))%nat at 1 by lia. apply lagr_shift. exact HL. }
        intros a b Hab. apply pr_ok. split; auto.
      * destruct prev as [B|], prev' as [B'|]; try contradiction; [|apply pr_ub_l]. apply pr_guard. intros Hb _. apply andb_true_iff in Hb as [Hb1 Hb2]. apply Nat.eqb_eq in Hb1, Hb2.
        destruct HP as (P1 & P2 & P3). eapply pr_bind; [apply rows_sub_agr; [|exact HM]|]. { intros i t Hi Ht. apply P3; lia. }
        intros a b Hab. eapply pr_bind; [eapply rows_solve_agr; eauto|]. intros c d Hcd. apply pr_ok. split; auto.
    + intros [Ma za] [Mb zb] [Q1 Q2]. cbn in *. subst zb. apply IH; auto; [apply (f2_hd bagr); auto|apply f2_tl; auto].
Qed.
Lemma tri_lt_agr e ds : forall ds' prev prev' ss ss' n l li z M M', Forall2 blagr ds ds' -> oagr prev prev' -> Forall2 bagr ss ss' -> mag M M' ->
  pr mag (tri_ltsolve_loop e ds prev ss n l li z M) (tri_ltsolve_loop e ds' prev' ss' n l li z M').
Proof.
  induction ds as [|D ds IH]; intros ds' prev prev' ss ss' n l li z M M' HD HP HS HM; inversion HD as [|D0 D' ds0 dt HD0 HDs]; subst; cbn [tri_ltsolve_loop].
  - apply pr_guard. intros _ _. apply pr_ok. auto.
  - destruct HD0 as (E1 & E2 & HL). apply pr_guard. intros Hsq _. rewrite <- E1. set (ni := brow D) in *.
    eapply (pr_bind bz).
    + destruct (n - ni <? e)%nat; [|apply pr_ok; split; auto]. destruct z.
      * apply pr_guard. intros Hr _. apply Nat.leb_le in Hr. eapply pr_bind; [apply rows_solve_t_agr; [|exact HM]|].
        { eapply lagr_le; [|exact HL]. exact Hr. }
        intros a b Hab. apply pr_ok. split; auto.
      * destruct prev as [B|], prev' as [B'|]; try contradiction; [|apply pr_ub_l]. apply pr_guard. intros Hb _. apply andb_true_iff in Hb as [Hb1 Hb2]. apply Nat.eqb_eq in Hb1, Hb2.
        destruct HP as (P1 & P2 & P3). eapply pr_bind; [apply rows_sub_agr; [|exact HM]|]. { intros i t Hi Ht. apply P3; lia. }
        intros a b Hab. eapply pr_bind; [eapply rows_solve_t_agr; eauto|]. intros c d Hcd. apply pr_ok. split; auto.
    + intros [Ma za] [Mb zb] [Q1 Q2]. cbn in *. subst zb. apply IH; auto; [apply (f2_hd bagr); auto|apply f2_tl; auto].
Qed.

Variable isz : carrier S -> bool.
Lemma arrow_ls_agr up start e nlast ds : forall ds' ss ss' n M M', Forall2 blagr ds ds' -> Forall2 bagr ss ss' -> mag M M' ->
  pr (fun a b => fst a = fst b /\ mag (snd a) (snd b)) (arrow_lsolve_loop isz up start e nlast ds ss n M) (arrow_lsolve_loop isz up start e nlast ds' ss' n M').
Proof.
  induction ds as [|D ds IH]; intros ds' ss ss' n M M' HD HS HM; inversion HD as [|D0 D' ds0 dt HD0 HDs]; subst; inversion HS as [|X X' st st' HX HSs]; subst; cbn [arrow_lsolve_loop]; try apply pr_ub_l.
  - apply pr_ok. auto.
  - destruct HD0 as (E1 & E2 & HL). apply pr_guard. intros Hsq _. rewrite <- E1. set (ni := brow D) in *.
    eapply (pr_bind mag).
    + destruct (_ || _).
      * apply pr_guard. intros _ _. apply pr_guard. intros _ _. apply pr_ok. auto.
      * eapply pr_bind; [apply rows_solve_agr; [|exact HM]|]. { apply lagr_shift. exact HL. }
        intros a b Hab. pose proof (get_B_agr up _ _ HX) as (P1 & P2 & P3). apply pr_guard. intros Hb _. apply andb_true_iff in Hb as [Hb Hb3]. apply andb_true_iff in Hb as [Hb1 Hb2].
        apply Nat.leb_le in Hb1, Hb3. apply Nat.eqb_eq in Hb2. rewrite <- (proj1 (proj1 Hab)). apply rows_sub_agr; auto. intros i t Hi Ht. apply P3; lia.
    + intros a b Hab. apply IH; auto.
Qed.
Lemma arrow_ls_top up diag diag' side side' M M' start e : Forall2 blagr diag diag' -> Forall2 bagr side side' -> mag M M' ->
  pr mag (arrow_lsolve_ isz up diag side M start e) (arrow_lsolve_ isz up diag' side' M' start e).
Proof.
  intros HD HS HM. unfold arrow_lsolve_. apply pr_guard. intros _ _. pose proof (split_agr up _ _ HD) as HSp.
  destruct (arrow_split up diag) as [[ds Db]|], (arrow_split up diag') as [[ds' Db']|]; try contradiction; [|apply pr_ub_l]. destruct HSp as [K1 K2].
  pose proof (f2_last blagr diag diag' Db Db' HD K2) as (L1 & _). rewrite <- L1.
  eapply pr_bind; [eapply arrow_ls_agr; eauto|]. intros a b [Q1 Q2]. rewrite <- Q1. apply pr_guard. intros _ _. destruct K2 as (T1 & T2 & T3). rewrite <- T1. apply rows_solve_agr; auto.
Qed.
Lemma rot_up_agr n0 M M' : (n0 <= brow M)%nat -> mag M M' -> mag (rotate_up n0 M) (rotate_up n0 M').
Proof.
  intros Hn ((F1 & F2 & K) & F3 & F4). split; [split; [|split]; auto|split; auto]. cbn [rotate_up brow bcol bm]. intros i j Hi Hj. rewrite <- F1. destruct (Nat.ltb_spec i (brow M - n0)); apply K; lia.
Qed.
Lemma rot_down_agr n0 M M' : (n0 <= brow M)%nat -> mag M M' -> mag (rotate_down n0 M) (rotate_down n0 M').
Proof.
  intros Hn ((F1 & F2 & K) & F3 & F4). split; [split; [|split]; auto|split; auto]. cbn [rotate_down brow bcol bm]. intros i j Hi Hj. rewrite <- F1. destruct (Nat.ltb_spec i n0); apply K; lia.
Qed.
Lemma arrow_solve_agr up diag diag' side side' M M' start e : Forall2 blagr diag diag' -> Forall2 bagr side side' -> mag M M' ->
  pr mag (blockArrowLSolve isz diag side up M start e) (blockArrowLSolve isz diag' side' up M' start e).
Proof.
  intros HD HS HM. unfold blockArrowLSolve. rewrite <- (proj1 (proj1 HM)). destruct up; [|apply arrow_ls_top; auto].
  destruct HD as [|D D' ds ds' HD0 HDs]; [apply pr_ub_l|]. pose proof HD0 as (E1 & _). rewrite <- E1. apply pr_guard. intros Hb _. apply Nat.leb_le in Hb. apply arrow_ls_top; auto. apply rot_up_agr; auto.
Qed.
Lemma arrow_lt_agr up start e z nb ds : forall ds' ss ss' n M M', Forall2 blagr ds ds' -> Forall2 bagr ss ss' -> mag M M' ->
  pr mag (arrow_ltsolve_loop up start e z nb ds ss n M) (arrow_ltsolve_loop up start e z nb ds' ss' n M').
Proof.
  induction ds as [|D ds IH]; intros ds' ss ss' n M M' HD HS HM; inversion HD as [|D0 D' ds0 dt HD0 HDs]; subst; cbn [arrow_ltsolve_loop].
  - apply pr_ok. auto.
  - destruct HS as [|X X' st st' HX HSs]; [apply pr_ub_l|]. destruct HD0 as (E1 & E2 & HL). apply pr_guard. intros Hsq _. rewrite <- E1. set (ni := brow D) in *.
    destruct (z && _)%bool; [apply IH; auto|].
    eapply (pr_bind mag).
    + destruct z; [apply pr_ok; auto|]. pose proof (get_B_agr up _ _ HX) as (P1 & P2 & P3). apply pr_guard. intros Hb _. apply andb_true_iff in Hb as [Hb1 Hb2]. apply Nat.eqb_eq in Hb1, Hb2.
      rewrite <- (proj1 (proj1 HM)). apply rows_sub_agr; auto. intros i t Hi Ht. apply P3; lia.
    + intros a b Hab. eapply (pr_bind mag).
      * destruct (n <=? e)%nat; [|apply pr_ok; auto]. destruct (Nat.leb_spec (n + ni) e); [apply rows_solve_t_agr; auto|].
        apply pr_guard. intros _ _. apply rows_solve_t_agr; auto. eapply lagr_le; [|exact HL]. unfold ni in *. lia.
      * intros c d Hcd. apply IH; auto.
Qed.
Lemma arrow_lt_top up diag diag' side side' M M' start e : Forall2 blagr diag diag' -> Forall2 bagr side side' -> mag M M' ->
  pr mag (arrow_ltsolve_ up diag side M start e) (arrow_ltsolve_ up diag' side' M' start e).
Proof.
  intros HD HS HM. unfold arrow_ltsolve_. pose proof (split_agr up _ _ HD) as HSp.
  destruct (arrow_split up diag) as [[ds Db]|], (arrow_split up diag') as [[ds' Db']|]; try contradiction; [|apply pr_ub_l]. destruct HSp as [K1 (T1 & T2 & T3)].
  apply pr_guard. intros _ _. rewrite <- T1, <- (proj1 (proj1 HM)).
  eapply (pr_bind bz).
  - destruct (_ <? e)%nat; [|apply pr_ok; split; auto]. apply pr_guard. intros Hr _. apply Nat.leb_le in Hr.
    eapply pr_bind; [apply rows_solve_t_agr; [eapply lagr_le; eauto|exact HM]|]. intros a b Hab. apply pr_ok. split; auto.
  - intros [Ma za] [Mb zb] [Q1 Q2]. cbn in *. subst zb. apply arrow_lt_agr; auto.
Qed.
Lemma rows_solve_t_row a r L (M M1 : blk) : rows_solve_t a r L M = Ok M1 -> brow M1 = brow M.
Proof. intros E. apply guard_ok in E as [_ E]. injection E as <-. reflexivity. Qed.
Lemma arrow_solve_t_agr up diag diag' side side' M M' start e : Forall2 blagr diag diag' -> Forall2 bagr side side' -> mag M M' ->
  pr mag (blockArrowLTransposeSolve diag side up M start e) (blockArrowLTransposeSolve diag' side' up M' start e).
Proof.
  intros HD HS HM. unfold blockArrowLTransposeSolve. rewrite <- (proj1 (proj1 HM)). destruct up; [|apply arrow_lt_top; auto].
  eapply pr_bind; [apply arrow_lt_top; eauto|]. intros a b Hab. destruct HD as [|D D' ds ds' HD0 HDs]; [apply pr_ub_l|]. pose proof HD0 as (E1 & _). rewrite <- E1.
  apply pr_guard. intros Hb _. apply Nat.leb_le in Hb. apply pr_ok. apply rot_down_agr; auto.
Qed.

End Solves.

(** ** StructuredG *)
Variable isz : carrier S -> bool.
Lemma col_agr n (v v' : vec) : vagr n v v' -> mag n 1 (col_of n v) (col_of n v').
Proof. intros H. split; [split; [|split]|split]; auto. cbn. intros i j Hi _. auto. Qed.
Lemma of_col_agr n M M' : mag n 1 M M' -> vagr n (of_col M) (of_col M').
Proof. intros ((F1 & F2 & K) & F3 & F4) i Hi. unfold of_col. rewrite !vm_at. apply K; lia. Qed.
Lemma solveLt_agr G G' n (v v' : vec) : gagr G G' -> vagr n v v' -> pr (vagr n) (stg_solveLt G n v) (stg_solveLt G' n v').
Proof.
  intros [H1 H2 H3 H4 H5] Hv. unfold stg_solveLt. apply pr_guard. intros _ _. apply pr_guard. intros _ _. rewrite <- H1.
  pose proof (col_agr n v v' Hv) as HM.
  eapply (pr_bind (mag n 1)).
  - destruct (g_type G); [|apply arrow_solve_t_agr; auto|apply arrow_solve_t_agr; auto].
    unfold triBlockDiagLTransposeSolve. apply tri_lt_agr; auto; apply f2_rev; auto.
  - intros a b Hab. apply pr_ok. apply of_col_agr. exact Hab.
Qed.
Lemma solveL_agr G G' n k (v v' : vec) : gagr G G' -> vagr n v v' -> pr (vagr n) (stg_solveL isz G n k v) (stg_solveL isz G' n k v').
Proof.
  intros [H1 H2 H3 H4 H5] Hv. unfold stg_solveL. apply pr_guard. intros _ _. apply pr_guard. intros _ _. rewrite <- H1.
  pose proof (col_agr n v v' Hv) as HM.
  eapply (pr_bind (mag n 1)).
  - destruct (g_type G); [|apply arrow_solve_agr; auto|apply arrow_solve_agr; auto].
    unfold triBlockDiagLSolve. apply pr_guard. intros _ _. apply tri_ls_agr; auto.
  - intros a b Hab. apply pr_ok. apply of_col_agr. exact Hab.
Qed.
Lemma toFull_agr (z : snz S) n u u' : pr (vagr n) (toFullVector z n u) (toFullVector z n u').
Proof.
  unfold toFullVector. apply pr_guard. intros Hn _. apply Nat.eqb_eq in Hn. apply pr_ok. intros i Hi. rewrite !vm_at.
  destruct (i <? z_start z)%nat; auto. destruct (i <? z_end z)%nat; auto. rewrite (proj2 (Nat.ltb_lt _ _)) by lia. reflexivity.
Qed.
Lemma solveL_nz_agr G G' n (out out' : vec) z : gagr G G' -> pr (vagr n) (stg_solveL_nz isz G n out z) (stg_solveL_nz isz G' n out' z).
Proof.
  intros [H1 H2 H3 H4 H5]. unfold stg_solveL_nz. apply pr_guard. intros _ _. apply pr_guard. intros _ _. rewrite <- H1.
  eapply pr_bind; [apply toFull_agr|]. intros v v' Hv. pose proof (col_agr n v v' Hv) as HM.
  eapply (pr_bind (mag n 1)).
  - destruct (g_type G); [|apply arrow_solve_agr; auto|apply arrow_solve_agr; auto].
    unfold triBlockDiagLSolve. apply pr_guard. intros _ _. apply tri_ls_agr; auto.
  - intros a b Hab. apply pr_ok. apply of_col_agr. exact Hab.
Qed.

(** ** Orthonormal sequences *)
Definition eagr (e e' : elem S) : Prop :=
  e_ty e = e_ty e' /\ e_n e = e_n e' /\ e_size e = e_size e' /\
  match e_ty e with
  | OHouseholder => (forall i j, (i < e_n e)%nat -> (j < e_size e)%nat -> (j <= i)%nat -> view (e_n e) (w_buf (e_w1 e)) i j = view (e_n e) (w_buf (e_w1 e')) i j) /\
      vagr (e_size e) (w_buf (e_w2 e)) (w_buf (e_w2 e'))
  | OGivens => vagr (e_size e) (w_buf (e_w1 e)) (w_buf (e_w1 e')) /\ vagr (e_size e) (w_buf (e_w2 e)) (w_buf (e_w2 e'))
  | OPermutation => True
  end.
Definition pagr (p p' : nat * elem S) : Prop := fst p = fst p' /\ eagr (snd p) (snd p').
Definition qagr (Q Q' : oseq S) : Prop := q_n Q = q_n Q' /\ Forall2 pagr (q_seq Q) (q_seq Q').

Lemma hh_step_agr n m (E E' : mat) (h h' : vec) k (v v' : vec) : (k < n)%nat -> (k < m)%nat -> (forall i j, (i < n)%nat -> (j < m)%nat -> (j <= i)%nat -> E i j = E' i j) -> vagr m h h' -> vagr n v v' ->
  vagr n (hh_step n E h k v) (hh_step n E' h' k v').
Proof.
  intros Hk Hm HE Hh Hv. unfold hh_step. rewrite (Hh k Hm).
  destruct (n - k =? 1)%nat. { intros i Hi. unfold upd. rewrite (Hv k) by auto. destruct (i =? k)%nat; auto. }
  destruct (eqb S (h' k) (zero S)); [auto|].
  assert (Es : sumn [53; k]%nat (n - k - 1) (fun r => mul S (E (k + 1 + r)%nat k) (v (k + 1 + r)%nat)) = sumn [53; k]%nat (n - k - 1) (fun r => mul S (E' (k + 1 + r)%nat k) (v' (k + 1 + r)%nat))).
  { apply gsum_ext. intros r Hr. rewrite HE, Hv by lia. reflexivity. }
  intros i Hi. rewrite !vm_at. rewrite Es, (Hv k) by auto. destruct (i =? k)%nat; [reflexivity|].
  destruct ((k <? i) && (i <? n))%nat eqn:Ec; [|auto]. apply andb_true_iff in Ec as [Ec _]. apply Nat.ltb_lt in Ec. rewrite (Hv i), (HE i k) by (auto; lia). reflexivity.
Qed.
Lemma hh_apply_agr n m (E E' : mat) (h h' : vec) cnt : forall (v v' : vec), (cnt <= n)%nat -> (cnt <= m)%nat -> (forall i j, (i < n)%nat -> (j < m)%nat -> (j <= i)%nat -> E i j = E' i j) -> vagr m h h' -> vagr n v v' ->
  vagr n (hh_apply n E h cnt v) (hh_apply n E' h' cnt v').
Proof. induction cnt as [|k IH]; intros v v' H1 H2 HE Hh Hv; cbn [hh_apply]; auto. apply IH; auto; try lia. apply hh_step_agr with m; auto. Qed.
Lemma hh_apply_t_agr n m (E E' : mat) (h h' : vec) cnt : forall (v v' : vec), (cnt <= n)%nat -> (cnt <= m)%nat -> (forall i j, (i < n)%nat -> (j < m)%nat -> (j <= i)%nat -> E i j = E' i j) -> vagr m h h' -> vagr n v v' ->
  vagr n (hh_apply_t n E h cnt v) (hh_apply_t n E' h' cnt v').
Proof. induction cnt as [|k IH]; intros v v' H1 H2 HE Hh Hv; cbn [hh_apply_t]; auto. apply hh_step_agr with m; auto. apply IH; auto; lia. Qed.
Lemma hh_one_agr n (E E' : mat) (h h' : vec) st sz (v v' : vec) : (st + sz <= n)%nat -> (forall i, (i < n)%nat -> E i 0%nat = E' i 0%nat) -> h 0%nat = h' 0%nat -> vagr n v v' ->
  vagr n (hh_one n E h st sz v) (hh_one n E' h' st sz v').
Proof.
  intros Hs HE Hh Hv i Hi. unfold hh_one. rewrite !vm_at. rewrite (proj2 (Nat.ltb_lt _ _) Hi). rewrite (Hv i), (HE i), Hh by auto. f_equal. f_equal. f_equal.
  apply gsum_ext. intros r Hr. rewrite HE, Hv by lia. reflexivity.
Qed.
Lemma g_step_agr n c s i (v v' : vec) : (Datatypes.S i < n)%nat -> vagr n v v' -> vagr n (g_step n c s i v) (g_step n c s i v').
Proof. intros Hi Hv k Hk. unfold g_step. rewrite !vm_at. rewrite (Hv i), (Hv (Datatypes.S i)), (Hv k) by lia. reflexivity. Qed.
Lemma g_down_agr n (c s c' s' : vec) cnt : forall (v v' : vec), (cnt < n \/ cnt = 0)%nat -> vagr cnt c c' -> vagr cnt s s' -> vagr n v v' -> vagr n (g_down n c s cnt v) (g_down n c' s' cnt v').
Proof.
  induction cnt as [|k IH]; intros v v' H Hc Hs Hv; cbn [g_down]; auto. rewrite (Hc k), (Hs k) by lia.
  apply IH; [lia|intros i Hi; apply Hc; lia|intros i Hi; apply Hs; lia|]. apply g_step_agr; [lia|auto].
Qed.
Lemma g_up_agr n (c s c' s' : vec) cnt : forall b (v v' : vec), (b + cnt < n \/ cnt = 0)%nat -> vagr (b + cnt) c c' -> vagr (b + cnt) s s' -> vagr n v v' -> vagr n (g_up n c s b cnt v) (g_up n c' s' b cnt v').
Proof.
  induction cnt as [|k IH]; intros b v v' H Hc Hs Hv; cbn [g_up]; auto. rewrite (Hc b), (Hs b) by lia.
  apply IH; [lia|intros i Hi; apply Hc; lia|intros i Hi; apply Hs; lia|]. apply g_step_agr; [lia|auto].
Qed.
Lemma elem_apply_agr e e' (v v' : vec) st sz : eagr e e' -> vagr (e_n e) v v' -> pr (vagr (e_n e)) (elem_apply e (e_n e) v st sz) (elem_apply e' (e_n e) v' st sz).
Proof.
  intros (E1 & E2 & E3 & H) Hv. unfold elem_apply. rewrite <- E1, <- E2, <- E3. apply pr_guard. intros Hg _. apply andb_true_iff in Hg as [_ Hg]. apply Nat.leb_le in Hg.
  destruct (e_ty e); [| |apply pr_ub_l].
  - destruct H as [HE Hh]. eapply pr_bind; [apply pr_getM|]. intros M M' (-> & -> & _). eapply pr_bind; [apply pr_getV|]. intros h h' (-> & ->).
    destruct (Nat.eqb_spec (e_size e) 1) as [E|E]; apply pr_ok.
    + apply hh_one_agr; auto; [intros i Hi; apply HE; lia|apply Hh; lia].
    + apply hh_apply_agr with (e_size e); auto; lia.
  - destruct H as [Hc Hs]. eapply pr_bind; [apply pr_getV|]. intros c c' (-> & ->). eapply pr_bind; [apply pr_getV|]. intros s s' (-> & ->).
    apply pr_guard. intros Hg2 _. apply orb_true_iff in Hg2. rewrite Nat.eqb_eq, Nat.ltb_lt in Hg2. apply pr_ok. apply g_down_agr; auto; [lia|intros i Hi; apply Hc; lia|intros i Hi; apply Hs; lia].
Qed.
Lemma elem_apply_t_agr e e' (v v' : vec) st sz : eagr e e' -> vagr (e_n e) v v' -> pr (vagr (e_n e)) (elem_apply_t e (e_n e) v st sz) (elem_apply_t e' (e_n e) v' st sz).
Proof.
  intros (E1 & E2 & E3 & H) Hv. unfold elem_apply_t. rewrite <- E1, <- E2, <- E3. apply pr_guard. intros Hg _. apply andb_true_iff in Hg as [_ Hg]. apply Nat.leb_le in Hg.
  destruct (e_ty e); [| |apply pr_ub_l].
  - destruct H as [HE Hh]. eapply pr_bind; [apply pr_getM|]. intros M M' (-> & -> & _). eapply pr_bind; [apply pr_getV|]. intros h h' (-> & ->).
    destruct (Nat.eqb_spec (e_size e) 1) as [E|E]; apply pr_ok.
    + apply hh_one_agr; auto; [intros i Hi; apply HE; lia|apply Hh; lia].
    + apply hh_apply_t_agr with (e_size e); auto; lia.
  - destruct H as [Hc Hs]. eapply pr_bind; [apply pr_getV|]. intros c c' (-> & ->). eapply pr_bind; [apply pr_getV|]. intros s s' (-> & ->).
    apply pr_guard. intros Hg2 _. apply orb_true_iff in Hg2. rewrite Nat.leb_le, Nat.ltb_lt in Hg2. apply pr_ok.
    destruct (Nat.leb_spec (e_size e) (st - 1)) as [Hle|Hgt].
    + replace (e_size e - (st - 1))%nat with 0%nat by lia. auto.
    + replace (e_size e - (st - 1))%nat with (e_size e - (st - 1))%nat by lia. apply g_up_agr; auto; [lia|intros i Hi; apply Hc; lia|intros i Hi; apply Hs; lia].
Qed.
Lemma segment_agr nn st n (v v' : vec) f f' : vagr nn v v' -> (forall w w', vagr n w w' -> pr (vagr n) (f w) (f' w')) -> pr (vagr nn) (on_segment nn st n v f) (on_segment nn st n v' f').
Proof.
  intros Hv Hf. unfold on_segment. apply pr_guard. intros Hg _. apply Nat.leb_le in Hg. eapply pr_bind; [apply Hf|]. { intros k Hk. apply Hv. lia. }
  intros w w' Hw. apply pr_ok. intros i Hi. rewrite !vm_at. destruct ((st <=? i) && (i <? st + n))%nat eqn:E; [|auto]. apply andb_true_iff in E as [E1 E2]. apply Nat.leb_le in E1. apply Nat.ltb_lt in E2. apply Hw. lia.
Qed.
Lemma os_app_agr nn l l' : Forall2 pagr l l' -> forall v v', vagr nn v v' -> pr (vagr nn) (os_app nn l v) (os_app nn l' v').
Proof.
  induction 1 as [|[st e] [st' e'] l l' [E1 E2] _ IH]; intros v v' Hv; cbn [os_app]; [apply pr_ok; auto|]. cbn in E1, E2. subst st'.
  rewrite <- (proj1 (proj2 E2)). eapply pr_bind; [apply segment_agr; [exact Hv|]|]. { intros w w' Hw. apply elem_apply_agr; auto. } intros w w' Hw. apply IH. exact Hw.
Qed.
Lemma os_app_t_agr nn l l' : Forall2 pagr l l' -> forall v v', vagr nn v v' -> pr (vagr nn) (os_app_t nn l v) (os_app_t nn l' v').
Proof.
  induction 1 as [|[st e] [st' e'] l l' [E1 E2] _ IH]; intros v v' Hv; cbn [os_app_t]; [apply pr_ok; auto|]. cbn in E1, E2. subst st'.
  rewrite <- (proj1 (proj2 E2)). eapply pr_bind; [apply segment_agr; [exact Hv|]|]. { intros w w' Hw. apply elem_apply_t_agr; auto. } intros w w' Hw. apply IH. exact Hw.
Qed.
Lemma os_apply_agr Q Q' n (v v' : vec) : qagr Q Q' -> vagr n v v' -> pr (vagr n) (os_apply Q n v) (os_apply Q' n v').
Proof. intros [E H] Hv. unfold os_apply. apply pr_guard. intros Hn _. apply Nat.eqb_eq in Hn. rewrite <- E, <- Hn. apply os_app_agr; auto. Qed.
Lemma os_apply_t_agr Q Q' n (v v' : vec) : qagr Q Q' -> vagr n v v' -> pr (vagr n) (os_apply_t Q n v) (os_apply_t Q' n v').
Proof. intros [E H] Hv. unfold os_apply_t. apply pr_guard. intros Hn _. apply Nat.eqb_eq in Hn. rewrite <- E, <- Hn. apply os_app_t_agr; auto. apply f2_rev. exact H. Qed.

(** building a sequence *)
Lemma prepare_agr junk junk' Q Q' ty n sz : qagr Q Q' -> pr qagr (os_prepare junk Q ty n sz) (os_prepare junk' Q' ty n sz).
Proof.
  intros [E H]. unfold os_prepare. eapply (pr_bind eagr).
  - unfold elem_new. destruct ty; [| |apply pr_ub_l]; apply pr_ok; (split; [|split; [|split]]; auto); cbn; split; intros; try lia; intros ? ?; lia.
  - intros e e' He. apply pr_ok. split; cbn; auto. constructor; auto. split; auto.
Qed.
Definition agr3 (a b : nat * elem S * list (nat * elem S)) : Prop := fst (fst a) = fst (fst b) /\ eagr (snd (fst a)) (snd (fst b)) /\ Forall2 pagr (snd a) (snd b).
Lemma back_agr Q Q' ty st : qagr Q Q' -> pr (fun a b => agr3 a b /\ e_ty (snd (fst a)) = ty) (os_back Q ty st) (os_back Q' ty st).
Proof.
  intros [E H]. unfold os_back. destruct H as [|[s e] [s' e'] l l' [E1 E2] Hl]; [apply pr_ub_l|]. cbn in E1, E2. subst s'. pose proof E2 as (K1 & K2 & K3 & _). rewrite <- K1, <- K3.
  apply pr_guard. intros Ht _. assert (Et : e_ty e = ty) by (destruct (e_ty e), ty; auto; discriminate).
  destruct (e_size e =? 0)%nat; [|apply pr_guard; intros _ _]; apply pr_ok; (split; [|exact Et]); split; auto.
Qed.
Lemma addG_agr Q Q' st g : qagr Q Q' -> pr qagr (os_addG Q st g) (os_addG Q' st g).
Proof.
  intros HQ. unfold os_addG. eapply pr_bind; [apply back_agr; exact HQ|]. intros [[s e] l] [[s' e'] l'] ((E1 & E2 & E3) & Et). cbn in E1, E2, E3, Et. subst s'.
  eapply (pr_bind eagr).
  - destruct E2 as (K1 & K2 & K3 & K). rewrite Et in K. destruct K as [Kc Ks]. unfold elem_addG. rewrite <- K1, <- K3. apply pr_guard. intros _ _.
    eapply pr_bind; [apply pr_getV|]. intros c c' (-> & ->). eapply pr_bind; [apply pr_getV|]. intros sn sn' (-> & ->). apply pr_ok.
    split; [|split; [|split]]; auto. cbn [e_ty e_size e_w1 e_w2 w_buf wset]. rewrite Et. split; intros i Hi; rewrite !vm_at; unfold upd; destruct (Nat.eqb_spec i (e_size e)); auto; [apply Kc|apply Ks]; lia.
  - intros a b Hab. apply pr_ok. split; [apply HQ|]. cbn. constructor; auto. split; auto.
Qed.
Lemma addH_agr Q Q' st esz (ess ess' : vec) tau : qagr Q Q' -> vagr esz ess ess' -> pr qagr (os_addH Q st esz ess tau) (os_addH Q' st esz ess' tau).
Proof.
  intros HQ Hs. unfold os_addH. eapply pr_bind; [apply back_agr; exact HQ|]. intros [[s e] l] [[s' e'] l'] ((E1 & E2 & E3) & Et). cbn in E1, E2, E3, Et. subst s'.
  eapply (pr_bind eagr).
  - destruct E2 as (K1 & K2 & K3 & K). rewrite Et in K. destruct K as [KE Kh]. unfold elem_addH. rewrite <- K1, <- K2, <- K3. apply pr_guard. intros _ _. apply pr_guard. intros Hsz _. apply Nat.eqb_eq in Hsz.
    eapply pr_bind; [apply pr_getM|]. intros c c' (-> & -> & _). eapply pr_bind; [apply pr_getV|]. intros t t' (-> & ->). apply pr_ok.
    split; [|split; [|split]]; auto. cbn [e_ty e_n e_size e_w1 e_w2 w_buf wset]. rewrite Et. split.
    + intros i j Hi Hj Hji. rewrite !view_unview by auto. destruct (Nat.eqb_spec j (e_size e)) as [->|Hne].
      * destruct (Nat.eqb_spec i (e_size e)); [reflexivity|]. destruct (Nat.ltb_spec (e_size e) i); [apply Hs; lia|lia].
      * apply KE; auto. lia.
    + intros i Hi; rewrite !vm_at; unfold upd; destruct (Nat.eqb_spec i (e_size e)); auto. apply Kh. lia.
  - intros a b Hab. apply pr_ok. split; [apply HQ|]. cbn. constructor; auto. split; auto.
Qed.
End Same.

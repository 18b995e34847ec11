(** Sizes and definedness of the block factorisations and triangular solves, for ANY scalar arithmetic.
    Nothing here uses the mathematics of the algorithm.

    [nul] stands for the values that a computation started from zeros can produce (0 in exact arithmetic; 0, -0 and
    NaN for doubles: a zero multiplied by an infinity, or divided by zero). *)
From Coq Require Import List Arith ZArith Lia Bool.
From Verif Require Import Base Num LinAlg Block BlockSpec BlockDense PropBlock.
Import ListNotations.

Record null_ops (S : ops) (nul : carrier S -> Prop) : Prop := {
  nl_zero : nul (zero S);
  nl_add : forall a b, nul a -> nul b -> nul (add S a b);
  nl_sub : forall a b, nul a -> nul b -> nul (sub S a b);
  nl_mull : forall a b, nul a -> nul (mul S a b);
  nl_mulr : forall a b, nul b -> nul (mul S a b);
  nl_div : forall a b, nul a -> nul (div S a b);
  nl_sqrt : forall a, nul a -> ltb S (eps14 S) (sqrt_ S a) = false    (* its square root is not > 1e-14 *)
}.

Section Gen.
Variable S : ops.
Variable isz : carrier S -> bool.
Variable nul : carrier S -> Prop.
Hypothesis HN : null_ops S nul.
Notation blk := (blk S).
Notation vec := (vec S).
Notation mat := (mat S).

Lemma guard_t {X} (b : bool) (r : res X) : b = true -> guard b r = r.
Proof. intros ->. reflexivity. Qed.
Lemma leb_t a b : (a <= b)%nat -> (a <=? b)%nat = true. Proof. apply Nat.leb_le. Qed.
Lemma leb_f a b : (b < a)%nat -> (a <=? b)%nat = false. Proof. apply Nat.leb_gt. Qed.
Lemma ltb_t a b : (a < b)%nat -> (a <? b)%nat = true. Proof. apply Nat.ltb_lt. Qed.
Lemma ltb_f a b : (b <= a)%nat -> (a <? b)%nat = false. Proof. apply Nat.ltb_ge. Qed.
Lemma eqb_t a b : a = b -> (a =? b)%nat = true. Proof. apply Nat.eqb_eq. Qed.

(** ** Same sizes *)
Definition same_size (D D' : blk) : Prop := brow D' = brow D /\ bcol D' = bcol D.
Lemma ss_refl D : same_size D D. Proof. split; auto. Qed.
Lemma ss_trans A B C : same_size A B -> same_size B C -> same_size A C. Proof. intros [] []. split; congruence. Qed.
Lemma f2_refl (l : list blk) : Forall2 same_size l l. Proof. induction l; constructor; auto using ss_refl. Qed.
Lemma f2_len {A B} {P : A -> B -> Prop} {l l'} : Forall2 P l l' -> length l = length l'.
Proof. induction 1; cbn; congruence. Qed.
Lemma same_total l l' : Forall2 same_size l l' -> total l' = total l.
Proof. induction 1 as [|a b l l' [H _] _ IH]; cbn [total]; [reflexivity|]. lia. Qed.

Lemma blk_llt_sz D : square D -> exists r D', blk_llt D = Ok (r, D') /\ same_size D D'.
Proof. intros H. unfold blk_llt. rewrite guard_t by (apply eqb_t; exact H). eexists _, _. split; [reflexivity|]. split; reflexivity. Qed.
Lemma solve_right_sz Lb X : square Lb -> bcol Lb = bcol X -> exists X', solve_right Lb X = Ok X' /\ same_size X X'.
Proof. intros H H1. unfold solve_right. rewrite guard_t by (rewrite !eqb_t; auto). eexists. split; [reflexivity|]. split; reflexivity. Qed.
Lemma solve_left_sz Lb X : square Lb -> bcol Lb = brow X -> exists X', solve_left Lb X = Ok X' /\ same_size X X'.
Proof. intros H H1. unfold solve_left. rewrite guard_t by (rewrite !eqb_t; auto). eexists. split; [reflexivity|]. split; reflexivity. Qed.
Lemma rank_update_sz D B : square D -> brow B = brow D -> exists D', rank_update D B = Ok D' /\ same_size D D'.
Proof. intros H H1. unfold rank_update. rewrite guard_t by (rewrite !eqb_t; auto). eexists. split; [reflexivity|]. split; reflexivity. Qed.

Lemma tri_sizes_ss ss : forall (D D' : blk) ds, same_size D D' -> tri_sizes D ds ss -> tri_sizes D' ds ss.
Proof.
  intros D D' ds [E1 E2] H. destruct ss as [|B ss], ds as [|D1 ds]; cbn [tri_sizes] in *; try (destruct H; contradiction).
  - destruct H as [H _]. split; [congruence|exact I].
  - destruct H as (H1 & H2 & H3 & H4). split; [congruence|]. split; [auto|]. split; [congruence|auto].
Qed.
Lemma tri_llt_sz ss : forall (D : blk) ds, tri_sizes D ds ss ->
  exists ok dl bl, tri_llt_loop D ds ss = Ok (ok, dl, bl) /\ Forall2 same_size (D :: ds) dl /\ Forall2 same_size ss bl.
Proof.
  induction ss as [|B ss IH]; intros D ds H.
  - destruct ds; [|destruct H as [_ []]]. destruct H as [H _]. cbn [tri_llt_loop]. destruct (blk_llt_sz D H) as (r & D' & E & HS). rewrite E. cbn [bind fst snd].
    eexists _, _, _. split; [reflexivity|]. split; repeat constructor; apply HS.
  - destruct ds as [|D1 ds]; [destruct H as [_ []]|]. destruct H as (H1 & H2 & H3 & H4). cbn [tri_llt_loop].
    destruct (blk_llt_sz D H1) as (r & D' & E & HS). rewrite E. cbn [bind fst snd]. destruct (0 <? r)%Z.
    + eexists _, _, _. split; [reflexivity|]. split; [constructor; [exact HS|apply f2_refl]|apply f2_refl].
    + destruct (solve_right_sz D' B) as (B' & EB & HB); [unfold square; destruct HS as [-> ->]; exact H1|destruct HS as [_ ->]; congruence|]. rewrite EB. cbn [bind].
      assert (H5 : square D1) by (destruct ss, ds; cbn [tri_sizes] in H4; apply H4).
      destruct (rank_update_sz D1 B' H5) as (D1' & ED & HD); [destruct HB as [-> _]; exact H2|]. rewrite ED. cbn [bind].
      destruct (IH D1' ds (tri_sizes_ss _ _ _ _ HD H4)) as (ok & dl & bl & Et & K1 & K2). rewrite Et. cbn [bind].
      eexists _, _, _. split; [reflexivity|]. split; [|constructor; auto]. constructor; [exact HS|]. inversion K1 as [|? x ? l Hx Hl]; subst. constructor; [|exact Hl]. eapply ss_trans; eauto.
Qed.
Lemma tri_ok_ss (diag diag' sub sub' : list blk) : Forall2 same_size diag diag' -> Forall2 same_size sub sub' -> tri_ok diag sub -> tri_ok diag' sub'.
Proof.
  intros F1 F2 (H1 & H2 & H3). split; [rewrite <- (f2_len F1), <- (f2_len F2); exact H1|]. split.
  - clear - F1 H2. induction F1 as [|a b l l' [E1 E2] _ IH]; constructor; inversion H2; subst; auto. unfold square in *. congruence.
  - assert (HF : forall l l' : list blk, Forall2 same_size l l' -> forall k x', nth_error l' k = Some x' -> exists x, nth_error l k = Some x /\ same_size x x').
    { clear. induction 1 as [|a b l l' Hab _ IH]; intros [|k] x' Hx; try discriminate; [injection Hx as <-; exists a; auto|apply IH; exact Hx]. }
    intros k B D D1 E1 E2 E3. destruct (HF _ _ F2 _ _ E1) as (B0 & K1 & [-> ->]), (HF _ _ F1 _ _ E2) as (D0 & K2 & [-> _]), (HF _ _ F1 _ _ E3) as (D01 & K3 & [-> _]). eapply H3; eauto.
Qed.
Lemma triLLT_sz (diag sub : list blk) : tri_ok diag sub -> exists ok dl bl, triBlockDiagLLT diag sub = Ok (ok, dl, bl) /\ Forall2 same_size diag dl /\ Forall2 same_size sub bl.
Proof.
  intros H. unfold triBlockDiagLLT. rewrite guard_t by (apply eqb_t; apply H). destruct diag as [|D ds]; [destruct H; cbn in *; lia|]. apply tri_llt_sz. apply tri_ok_sizes. exact H.
Qed.

(** ** Arrow *)
(** the side blocks seen as blocks of the last row *)
Fixpoint arr_sz (up : bool) (ds ss : list blk) (nb : nat) : Prop :=
  match ds, ss with
  | [], [] => True
  | D :: ds', X :: ss' => square D /\ brow (get_B up X) = nb /\ bcol (get_B up X) = brow D /\ arr_sz up ds' ss' nb
  | _, _ => False
  end.
Lemma arr_sizes up ds : forall ss (Db : blk), arrow_sizes ds (map (get_B up) ss) Db <-> (arr_sz up ds ss (brow Db) /\ square Db).
Proof.
  induction ds as [|D ds IH]; intros ss Db; destruct ss as [|X ss]; cbn [map arrow_sizes arr_sz]; unfold square in *; try tauto.
  rewrite IH. tauto.
Qed.
Lemma get_B_ss up X X' : same_size X X' -> same_size (get_B up X) (get_B up X').
Proof. intros [H1 H2]. destruct up; split; cbn; auto. Qed.
Lemma arrow_llt_sz up ds : forall ss (Db : blk), arr_sz up ds ss (brow Db) -> square Db ->
  exists ok dl bl db, arrow_llt_loop up ds ss Db = Ok (ok, dl, bl, db) /\ Forall2 same_size ds dl /\ Forall2 same_size ss bl /\ same_size Db db.
Proof.
  induction ds as [|D ds IH]; intros ss Db H Hb; destruct ss as [|X ss]; cbn [arr_sz] in H; try contradiction; cbn [arrow_llt_loop].
  - destruct (blk_llt_sz Db Hb) as (r & D' & E & HS). rewrite E. cbn [bind fst snd]. eexists _, _, _, _. split; [reflexivity|]. split; [constructor|split; [constructor|exact HS]].
  - destruct H as (H1 & H2 & H3 & H4). destruct (blk_llt_sz D H1) as (r & D' & E & HS). rewrite E. cbn [bind fst snd]. destruct (0 <? r)%Z.
    + eexists _, _, _, _. split; [reflexivity|]. split; [constructor; [exact HS|apply f2_refl]|]. split; [apply f2_refl|apply ss_refl].
    + assert (HD : square D') by (unfold square; destruct HS as [-> ->]; exact H1).
      assert (HX : exists X', (if up then solve_left D' X else solve_right D' X) = Ok X' /\ same_size X X').
      { destruct HS as [E1 E2]. destruct up; [apply solve_left_sz|apply solve_right_sz]; auto; cbn in H2, H3; unfold square in H1; congruence. }
      destruct HX as (X' & EX & HX). rewrite EX. cbn [bind].
      destruct (rank_update_sz Db (get_B up X') Hb) as (Db' & ED & HDb); [destruct (get_B_ss up _ _ HX) as [-> _]; exact H2|]. rewrite ED. cbn [bind].
      destruct (IH ss Db') as (ok & dl & bl & db & Et & K1 & K2 & K3); [destruct HDb as [-> _]; exact H4|unfold square; destruct HDb as [-> ->]; exact Hb|]. rewrite Et. cbn [bind].
      eexists _, _, _, _. split; [reflexivity|]. split; [constructor; auto|]. split; [constructor; auto|eapply ss_trans; eauto].
Qed.
(** an arrow, whatever its orientation *)
Definition arrow_sz (up : bool) (diag side : list blk) : Prop :=
  exists ds Db, arrow_split up diag = Some (ds, Db) /\ arrow_join up ds Db = diag /\ arr_sz up ds side (brow Db) /\ square Db /\ length diag = (length side + 1)%nat.
Lemma arr_sz_len up ds : forall ss nb, arr_sz up ds ss nb -> length ds = length ss.
Proof. induction ds as [|D ds IH]; intros [|X ss] nb H; cbn [arr_sz length] in *; try contradiction; auto. f_equal. apply (IH ss nb). apply H. Qed.
Lemma split_join up ds (Db : blk) : arrow_split up (arrow_join up ds Db) = Some (ds, Db).
Proof.
  destruct up; cbn; [reflexivity|]. destruct ds as [|D ds]; [reflexivity|]. unfold arrow_split. cbn [app]. f_equal. f_equal.
  - change (D :: ds ++ [Db]) with ((D :: ds) ++ [Db]). rewrite removelast_last. reflexivity.
  - change (D :: ds ++ [Db]) with ((D :: ds) ++ [Db]). rewrite last_last. reflexivity.
Qed.
Lemma arrow_ok_sz up (diag side : list blk) : arrow_ok up diag side -> arrow_sz up diag side.
Proof.
  intros H. pose proof H as (HL & _ & _). destruct up.
  - destruct diag as [|D ds]; [cbn in HL; lia|]. apply arrow_ok_up, arr_sizes in H. exists ds, D. repeat split; auto; apply H.
  - destruct (exists_last (l := diag)) as (ds & Db & ->); [destruct diag; [cbn in HL; lia|discriminate]|].
    apply arrow_ok_sizes in H. rewrite <- (map_id side) in H. apply (arr_sizes false) in H. exists ds, Db. split; [apply (split_join false)|]. repeat split; auto; apply H.
Qed.
Lemma arr_sz_ss up ds ds' : Forall2 same_size ds ds' -> forall ss ss' nb, Forall2 same_size ss ss' -> arr_sz up ds ss nb -> arr_sz up ds' ss' nb.
Proof.
  induction 1 as [|D D' ds ds' HD _ IH]; intros ss ss' nb HS H; destruct HS as [|X X' ss ss' HX HS]; cbn [arr_sz] in *; try contradiction; auto.
  destruct H as (H1 & H2 & H3 & H4). pose proof HD as [E1 E2]. destruct (get_B_ss up _ _ HX) as [E3 E4]. unfold square in *. repeat split; try congruence. eapply IH; eauto.
Qed.
Lemma join_len up ds (Db : blk) : length (arrow_join up ds Db) = (length ds + 1)%nat.
Proof. destruct up; cbn; [lia|]. rewrite app_length. reflexivity. Qed.
Lemma join_f2 up ds ds' (Db Db' : blk) : Forall2 same_size ds ds' -> same_size Db Db' -> Forall2 same_size (arrow_join up ds Db) (arrow_join up ds' Db').
Proof. intros H1 H2. destruct up; cbn; [constructor; auto|]. apply Forall2_app; auto. Qed.
Lemma arrowLLT_sz up (diag side : list blk) : arrow_sz up diag side ->
  exists ok dl bl, blockArrowLLT diag side up = Ok (ok, dl, bl) /\ Forall2 same_size diag dl /\ Forall2 same_size side bl /\ arrow_sz up dl bl.
Proof.
  intros (ds & Db & E & EJ & H1 & H2 & HL). unfold blockArrowLLT. rewrite guard_t by (apply eqb_t; exact HL). rewrite E.
  destruct (arrow_llt_sz up ds side Db H1 H2) as (ok & dl & bl & db & Et & K1 & K2 & K3). rewrite Et. cbn [bind].
  eexists _, _, _. split; [reflexivity|]. rewrite <- EJ. split; [apply join_f2; auto|]. split; [exact K2|].
  exists dl, db. split; [apply split_join|]. split; [reflexivity|]. destruct K3 as [E1 E2]. split; [rewrite E1; eapply arr_sz_ss; eauto|]. split; [unfold square in *; congruence|].
  rewrite join_len, <- (f2_len K1), <- (f2_len K2), (arr_sz_len _ _ _ _ H1). reflexivity.
Qed.

(** ** Elementary operations on rows *)
Definition nulM (M : blk) : Prop := forall i j, (i < brow M)%nat -> nul (bm M i j).
Lemma sumn_nul {key} k (f : nat -> carrier S) : (forall i, (i < k)%nat -> nul (f i)) -> nul (sumn key k f).
Proof. apply (sumn_in S nul); [apply (nl_zero _ _ HN)|apply (nl_add _ _ HN)]. Qed.
Lemma subn_nul {key} k a (f : nat -> carrier S) : nul a -> (forall i, (i < k)%nat -> nul (f i)) -> nul (subn key k a f).
Proof.
  intros Ha H. unfold subn.
  assert (E : forall t, In t (so_sub (order S) key k) -> nul (seval f t)).
  { intros t Ht. apply (seval_in S nul f); [apply (nl_zero _ _ HN)|apply (nl_add _ _ HN)|]. intros i Hi. apply H, (so_sub_lt (order S) key k t i Ht Hi). }
  revert a Ha E. induction (so_sub (order S) key k) as [|t l IH]; intros a Ha E; [exact Ha|]. cbn [fold_left].
  apply IH; [apply (nl_sub _ _ HN); [exact Ha|apply E; left; reflexivity]|]. intros t' Ht'. apply E. right. exact Ht'.
Qed.
Lemma bwd_nul n (U : mat) (b : vec) : (forall i, (i < n)%nat -> nul (b i)) -> forall k i, (k <= n)%nat -> (i < n)%nat -> nul (bwd n k U b i).
Proof.
  intros Hb. induction k as [|k IH]; intros i Hk Hi; cbn [bwd]; [auto|]. unfold upd. destruct (Nat.eqb_spec i (n - Datatypes.S k)) as [->|]; [|apply IH; lia].
  apply (nl_div _ _ HN). apply subn_nul; [apply Hb; lia|]. intros t Ht. apply (nl_mulr _ _ HN). apply IH; lia.
Qed.
Lemma fwd_nul n (Lm : mat) (b : vec) : (forall i, (i < n)%nat -> nul (b i)) -> forall k i, (k <= n)%nat -> (i < n)%nat -> nul (fwd k Lm b i).
Proof.
  intros Hb. induction k as [|k IH]; intros i Hk Hi; cbn [fwd]; [auto|]. unfold upd. destruct (Nat.eqb_spec i k) as [->|]; [|apply IH; lia].
  apply (nl_div _ _ HN). apply subn_nul; [apply Hb; lia|]. intros t Ht. apply (nl_mulr _ _ HN). apply IH; lia.
Qed.
Definition ext_rows (M M' : blk) (a r : nat) : Prop := forall i j, (i < brow M)%nat -> ~ (a <= i < a + r)%nat -> bm M' i j = bm M i j.
Lemma rows_solve_sz a r Lm (M : blk) : (a + r <= brow M)%nat -> exists M', rows_solve a r Lm M = Ok M' /\ same_size M M' /\ ext_rows M M' a r /\ (nulM M -> nulM M').
Proof.
  intros H. unfold rows_solve. rewrite guard_t by (apply leb_t; exact H). eexists. split; [reflexivity|]. split; [split; reflexivity|]. split.
  - intros i j Hi Hn. cbn [bm]. destruct ((a <=? i) && (i <? a + r))%nat eqn:E; auto. apply andb_true_iff in E as [E1 E2]. apply Nat.leb_le in E1. apply Nat.ltb_lt in E2. lia.
  - intros HM i j Hi. cbn [bm brow] in *. destruct ((a <=? i) && (i <? a + r))%nat eqn:E; [|auto]. apply andb_true_iff in E as [E1 E2]. apply Nat.leb_le in E1. apply Nat.ltb_lt in E2.
    apply (fwd_nul r); auto; [|lia]. intros k Hk. apply HM. lia.
Qed.
Lemma rows_solve_t_sz a r Lm (M : blk) : (a + r <= brow M)%nat -> exists M', rows_solve_t a r Lm M = Ok M' /\ same_size M M' /\ ext_rows M M' a r /\ (nulM M -> nulM M').
Proof.
  intros H. unfold rows_solve_t. rewrite guard_t by (apply leb_t; exact H). eexists. split; [reflexivity|]. split; [split; reflexivity|]. split.
  - intros i j Hi Hn. cbn [bm]. destruct ((a <=? i) && (i <? a + r))%nat eqn:E; auto. apply andb_true_iff in E as [E1 E2]. apply Nat.leb_le in E1. apply Nat.ltb_lt in E2. lia.
  - intros HM i j Hi. cbn [bm brow] in *. destruct ((a <=? i) && (i <? a + r))%nat eqn:E; [|auto]. apply andb_true_iff in E as [E1 E2]. apply Nat.leb_le in E1. apply Nat.ltb_lt in E2.
    apply (bwd_nul r); auto; [|lia]. intros k Hk. apply HM. lia.
Qed.
Lemma rows_sub_sz a r B l k (M : blk) : (a + r <= brow M)%nat -> (l + k <= brow M)%nat -> exists M', rows_sub a r B l k M = Ok M' /\ same_size M M' /\ ext_rows M M' a r /\ (nulM M -> nulM M').
Proof.
  intros H H1. unfold rows_sub. rewrite guard_t by (rewrite !leb_t; auto). eexists. split; [reflexivity|]. split; [split; reflexivity|]. split.
  - intros i j Hi Hn. cbn [bm]. destruct ((a <=? i) && (i <? a + r))%nat eqn:E; auto. apply andb_true_iff in E as [E1 E2]. apply Nat.leb_le in E1. apply Nat.ltb_lt in E2. lia.
  - intros HM i j Hi. cbn [bm brow] in *. destruct ((a <=? i) && (i <? a + r))%nat eqn:E; [|auto].
    apply subn_nul; [auto|]. intros t Ht. apply (nl_mulr _ _ HN). apply HM. lia.
Qed.

(** ** triBlockDiagLSolve *)
Lemma tri_lsolve_sz start : forall ds ss prev n l li zero (M : blk), Forall square ds -> (n + total ds = brow M)%nat -> (l + li <= n)%nat ->
  (zero = true -> (n <= start)%nat) ->
  (zero = false -> match ds with [] => True | D :: _ => exists B, prev = Some B /\ brow B = brow D /\ bcol B = li end) ->
  (forall k B D D1, nth_error ss k = Some B -> nth_error ds k = Some D -> nth_error ds (k + 1) = Some D1 -> brow B = brow D1 /\ bcol B = brow D) ->
  (length ds <= length ss + 1)%nat ->
  exists M', tri_lsolve_loop start ds prev ss n l li zero M = Ok M' /\ same_size M M'.
Proof.
  induction ds as [|D ds IH]; intros ss prev n l li zero M HQ HT Hl Hz Hp HS HL; cbn [tri_lsolve_loop total] in *.
  - rewrite guard_t by (apply eqb_t; lia). exists M. split; [reflexivity|apply ss_refl].
  - inversion HQ as [|? ? Hs HQ']; subst. rewrite guard_t by (apply eqb_t; exact Hs). cbv zeta.
    assert (HR : exists M1 z1, (if (start <=? n + brow D)%nat then if zero then guard (n + brow D - start <=? brow D)%nat (do M0 <- rows_solve start (n + brow D - start) (shift (brow D - (n + brow D - start)) (bm D)) M; Ok (M0, false))
               else match prev with None => UB | Some B => guard ((brow B =? brow D) && (bcol B =? li))%nat (do M0 <- rows_sub n (brow D) (bm B) l li M; do M2 <- rows_solve n (brow D) (bm D) M0; Ok (M2, false)) end
             else Ok (M, zero)) = Ok (M1, z1) /\ same_size M M1 /\ (z1 = true -> (n + brow D <= start)%nat)).
    { destruct (Nat.leb_spec start (n + brow D)) as [H1|H1].
      - destruct zero.
        + specialize (Hz eq_refl). rewrite guard_t by (apply leb_t; lia).
          destruct (rows_solve_sz start (n + brow D - start) (shift (brow D - (n + brow D - start)) (bm D)) M) as (M1 & E & HM & _); [lia|]. rewrite E. cbn [bind].
          exists M1, false. split; [reflexivity|]. split; [exact HM|discriminate].
        + destruct (Hp eq_refl) as (B & -> & E1 & E2). rewrite guard_t by (rewrite !eqb_t; auto).
          destruct (rows_sub_sz n (brow D) (bm B) l li M) as (M1 & E & HM & _); [lia|lia|]. rewrite E. cbn [bind].
          destruct (rows_solve_sz n (brow D) (bm D) M1) as (M2 & E' & HM' & _); [destruct HM as [-> _]; lia|]. rewrite E'. cbn [bind].
          exists M2, false. split; [reflexivity|]. split; [eapply ss_trans; eauto|discriminate].
      - exists M, zero. split; [reflexivity|]. split; [apply ss_refl|]. intros ->. lia. }
    destruct HR as (M1 & z1 & -> & HM & Hz1). cbn [bind fst snd].
    destruct (IH (tl ss) (hd_error ss) (n + brow D)%nat n (brow D) z1 M1) as (M2 & E & HM2); auto.
    + destruct HM as [-> _]. lia.
    + intros _. destruct ds as [|D1 ds]; [exact I|]. destruct ss as [|B ss]; [cbn in HL; lia|]. exists B. split; [reflexivity|]. destruct (HS 0%nat B D D1); auto.
    + intros k B E E1 K1 K2 K3. destruct ss as [|B0 ss]; [destruct k; discriminate|]. apply (HS (Datatypes.S k)); auto.
    + destruct ss as [|B0 ss]; cbn [tl length] in *; lia.
    + exists M2. split; [exact E|]. eapply ss_trans; eauto.
Qed.
Lemma triLSolve_sz (diag sub : list blk) M start : tri_ok diag sub -> brow M = total diag -> exists M', triBlockDiagLSolve diag sub M start = Ok M' /\ same_size M M'.
Proof.
  intros (H1 & H2 & H3) HM. unfold triBlockDiagLSolve. rewrite guard_t by (apply eqb_t; exact H1). apply tri_lsolve_sz; auto; lia.
Qed.
(** ** triBlockDiagLTransposeSolve without hint *)
Lemma total_rev (l : list blk) : total (rev l) = total l.
Proof. induction l as [|D l IH]; cbn [rev total]; [reflexivity|]. rewrite total_app, IH. cbn [total]. lia. Qed.
Lemma tri_ltsolve_sz e : forall ds ss prev n l li zero (M : blk), Forall square ds -> n = total ds -> (n <= brow M)%nat -> e = brow M -> (l - li + li <= brow M)%nat ->
  (zero = true -> n = e) ->
  (zero = false -> match ds with [] => True | D :: _ => exists B, prev = Some B /\ bcol B = brow D /\ brow B = li end) ->
  (forall k B D D1, nth_error ss k = Some B -> nth_error ds k = Some D -> nth_error ds (k + 1) = Some D1 -> bcol B = brow D1 /\ brow B = brow D) ->
  (length ds <= length ss + 1)%nat ->
  exists M', tri_ltsolve_loop e ds prev ss n l li zero M = Ok M' /\ same_size M M' /\ (nulM M -> nulM M').
Proof.
  induction ds as [|D ds IH]; intros ss prev n l li zero M HQ HT Hn He Hl Hz Hp HS HL; cbn [tri_ltsolve_loop total] in *.
  - rewrite guard_t by (apply eqb_t; lia). exists M. split; [reflexivity|]. split; [apply ss_refl|auto].
  - inversion HQ as [|? ? Hs HQ']; subst x l0. rewrite guard_t by (rewrite eqb_t, leb_t by (exact Hs || lia); reflexivity). cbv zeta.
    assert (HR : exists M1 z1, (if (n - brow D <? e)%nat then if zero then guard (e + brow D - n <=? brow D)%nat (do M0 <- rows_solve_t (n - brow D) (e + brow D - n) (bm D) M; Ok (M0, false))
               else match prev with None => UB | Some B => guard ((bcol B =? brow D) && (brow B =? li))%nat (do M0 <- rows_sub (n - brow D) (brow D) (fun i k => bm B k i) (l - li) li M; do M2 <- rows_solve_t (n - brow D) (brow D) (bm D) M0; Ok (M2, false)) end
             else Ok (M, zero)) = Ok (M1, z1) /\ same_size M M1 /\ (nulM M -> nulM M1) /\ (z1 = true -> (n - brow D)%nat = e)).
    { destruct (Nat.ltb_spec (n - brow D) e) as [H1|H1].
      - destruct zero.
        + specialize (Hz eq_refl). rewrite guard_t by (apply leb_t; lia).
          destruct (rows_solve_t_sz (n - brow D) (e + brow D - n) (bm D) M) as (M1 & E & HM & _ & K); [lia|]. rewrite E. cbn [bind].
          exists M1, false. split; [reflexivity|]. split; [exact HM|]. split; [auto|discriminate].
        + destruct (Hp eq_refl) as (B & -> & E1 & E2). rewrite guard_t by (rewrite !eqb_t; auto).
          destruct (rows_sub_sz (n - brow D) (brow D) (fun i k => bm B k i) (l - li) li M) as (M1 & E & HM & _ & K); [lia|lia|]. rewrite E. cbn [bind].
          destruct (rows_solve_t_sz (n - brow D) (brow D) (bm D) M1) as (M2 & E' & HM' & _ & K'); [destruct HM as [-> _]; lia|]. rewrite E'. cbn [bind].
          exists M2, false. split; [reflexivity|]. split; [eapply ss_trans; eauto|]. split; [auto|discriminate].
      - exists M, zero. split; [reflexivity|]. split; [apply ss_refl|]. split; [auto|]. intros _. lia. }
    destruct HR as (M1 & z1 & -> & HM & HK & Hz1). cbn [bind fst snd].
    destruct (IH (tl ss) (hd_error ss) (n - brow D)%nat n (brow D) z1 M1) as (M2 & E & HM2 & HK2); auto.
    + lia.
    + destruct HM as [-> _]. lia.
    + destruct HM as [-> _]. auto.
    + destruct HM as [-> _]. lia.
    + intros _. destruct ds as [|D1 ds]; [exact I|]. destruct ss as [|B ss]; [cbn in HL; lia|]. exists B. split; [reflexivity|]. destruct (HS 0%nat B D D1); auto.
    + intros k B E E1 K1 K2 K3. destruct ss as [|B0 ss]; [destruct k; discriminate|]. apply (HS (Datatypes.S k)); auto.
    + destruct ss as [|B0 ss]; cbn [tl length] in *; lia.
    + exists M2. split; [exact E|]. split; [eapply ss_trans; eauto|auto].
Qed.
Lemma nth_rev {X} (l : list X) k : (k < length l)%nat -> nth_error (rev l) k = nth_error l (length l - 1 - k).
Proof.
  intros H. destruct (nth_error l (length l - 1 - k)) as [x|] eqn:E; [|apply nth_error_None in E; lia].
  rewrite (nth_error_nth' _ x) by (rewrite rev_length; exact H). rewrite rev_nth by exact H. replace (length l - Datatypes.S k)%nat with (length l - 1 - k)%nat by lia. f_equal. apply nth_error_nth. exact E.
Qed.
Lemma triLtSolve_sz (diag sub : list blk) M : tri_ok diag sub -> brow M = total diag -> exists M', triBlockDiagLTransposeSolve diag sub M None = Ok M' /\ same_size M M' /\ (nulM M -> nulM M').
Proof.
  intros (H1 & H2 & H3) HM. unfold triBlockDiagLTransposeSolve. apply tri_ltsolve_sz; rewrite ?total_rev, ?rev_length; auto; try lia.
  - apply Forall_rev. exact H2.

  - intros k B D D1 E1 E2 E3. pose proof (nth_lt _ _ _ E1) as L1. pose proof (nth_lt _ _ _ E3) as L3. rewrite rev_length in L1, L3. rewrite nth_rev in E1, E2, E3 by lia.
    destruct (H3 (length sub - 1 - k)%nat B D1 D) as [K1 K2]; auto.
    + eapply eq_trans; [|exact E3]. f_equal. lia.
    + eapply eq_trans; [|exact E2]. f_equal. lia.
Qed.

(** ** Arrow solves *)
Hypothesis Hisz : isz (zero S) = true.
Definition zrows (a b : nat) (M : blk) : Prop := forall i j, (a <= i < b)%nat -> bm M i j = zero S.
Lemma rows_zero_ok a r (M : blk) : zrows a (a + r) M -> rows_zero isz a r M = true.
Proof.
  intros H. unfold rows_zero. apply forallb_forall. intros i Hi. apply forallb_forall. intros j Hj. apply in_seq in Hi. rewrite H by lia. exact Hisz.
Qed.
Lemma arrow_lsolve_sz up start end_ nlast : forall ds ss n (M : blk), arr_sz up ds ss nlast -> (n + total ds + nlast = brow M)%nat ->
  zrows n (Nat.min start (brow M - nlast)) M -> zrows (Nat.max n end_) (brow M - nlast) M ->
  exists M', arrow_lsolve_loop isz up start end_ nlast ds ss n M = Ok ((n + total ds)%nat, M') /\ same_size M M'.
Proof.
  induction ds as [|D ds IH]; intros ss n M H HT Z1 Z2; destruct ss as [|X ss]; cbn [arr_sz] in H; try contradiction; cbn [arrow_lsolve_loop total] in *.
  - exists M. split; [f_equal; f_equal; lia|apply ss_refl].
  - destruct H as (H1 & H2 & H3 & H4). rewrite guard_t by (apply eqb_t; exact H1). cbv zeta.
    assert (HR : exists M1, (if ((brow D <? start - n) || (end_ <=? n))%nat then guard (n + brow D <=? brow M)%nat (guard (rows_zero isz n (brow D) M) (Ok M))
               else do M0 <- rows_solve (n + (start - n)) (brow D - (start - n)) (shift (start - n) (bm D)) M;
                 guard ((nlast <=? brow M0) && (brow (get_B up X) =? nlast) && (start - n + (brow D - (start - n)) <=? bcol (get_B up X)))%nat
                   (rows_sub (brow M0 - nlast) nlast (fun i k => bm (get_B up X) i (start - n + k)%nat) (n + (start - n)) (brow D - (start - n)) M0)) = Ok M1 /\
             same_size M M1 /\ forall i j, (n + brow D <= i < brow M - nlast)%nat -> bm M1 i j = bm M i j).
    { destruct ((brow D <? start - n) || (end_ <=? n))%nat eqn:Ec.
      - rewrite guard_t by (apply leb_t; lia). exists M. rewrite guard_t; [split; [reflexivity|]; split; [apply ss_refl|auto]|].
        apply rows_zero_ok. intros i j Hi. apply orb_true_iff in Ec as [Ec|Ec]; [apply Nat.ltb_lt in Ec; apply Z1; lia|apply Nat.leb_le in Ec; apply Z2; lia].
      - apply orb_false_iff in Ec as [C1 C2]. apply Nat.ltb_ge in C1. apply Nat.leb_gt in C2.
        destruct (rows_solve_sz (n + (start - n)) (brow D - (start - n)) (shift (start - n) (bm D)) M) as (M1 & E & [HM HMc] & HX & _); [lia|]. rewrite E. cbn [bind].
        rewrite guard_t by (rewrite !leb_t, eqb_t by (auto; lia); reflexivity).
        destruct (rows_sub_sz (brow M1 - nlast) nlast (fun i k => bm (get_B up X) i (start - n + k)%nat) (n + (start - n)) (brow D - (start - n)) M1) as (M2 & E2 & HM2 & HX2 & _); [lia|lia|].
        exists M2. split; [exact E2|]. split; [eapply ss_trans; eauto; split; auto|]. intros i j Hi. rewrite HX2 by lia. apply HX; lia. }
    destruct HR as (M1 & -> & HM & HX). cbn [bind]. pose proof HM as [Eb _].
    destruct (IH ss (n + brow D)%nat M1) as (M2 & E & HM2); auto.
    + lia.
    + intros i j Hi. rewrite HX by lia. apply Z1. lia.
    + intros i j Hi. rewrite HX by lia. apply Z2. lia.
    + exists M2. rewrite E. split; [f_equal; f_equal; lia|eapply ss_trans; eauto].
Qed.
Lemma total_join up ds (Db : blk) : total (arrow_join up ds Db) = (total ds + brow Db)%nat.
Proof. destruct up; cbn [arrow_join total]; [lia|]. rewrite total_app. cbn [total]. lia. Qed.
Lemma arrow_lsolve__sz up (diag side : list blk) M start end_ : arrow_sz up diag side -> tip_fits up diag -> brow M = total diag ->
  (forall i j, (i < start)%nat -> (forall ds Db, arrow_split up diag = Some (ds, Db) -> (i < total ds)%nat) -> bm M i j = zero S) ->
  (forall i j, (end_ <= i)%nat -> (forall ds Db, arrow_split up diag = Some (ds, Db) -> (i < total ds)%nat) -> bm M i j = zero S) ->
  exists M', arrow_lsolve_ isz up diag side M start end_ = Ok M' /\ same_size M M'.
Proof.
  intros (ds & Db & E & EJ & H1 & H2 & HL) HT HM Z1 Z2. unfold arrow_lsolve_. rewrite guard_t by (apply eqb_t; exact HL). rewrite E.
  assert (Et : total diag = (total ds + brow Db)%nat) by (rewrite <- EJ; apply total_join).
  assert (El : brow (last diag Db) = brow Db).
  { destruct up.
    - cbn [arrow_join] in EJ. rewrite <- EJ. assert (K := HT eq_refl Db (last (Db :: ds) Db)). rewrite <- EJ in K. apply K; [reflexivity|]. apply nth_error_last.
    - cbn [arrow_join] in EJ. rewrite <- EJ, last_last. reflexivity. }
  rewrite El. destruct (arrow_lsolve_sz up start end_ (brow Db) ds side 0 M H1) as (M1 & E1 & S1); [lia| | |].
  - intros i j Hi. apply Z1; [lia|]. intros ds' Db' E'. rewrite E in E'. injection E' as <- <-. lia.
  - intros i j Hi. apply Z2; [lia|]. intros ds' Db' E'. rewrite E in E'. injection E' as <- <-. lia.
  - rewrite E1. cbn [bind fst snd]. rewrite guard_t by (apply eqb_t; exact H2).
    destruct (rows_solve_sz (0 + total ds) (brow Db) (bm Db) M1) as (M2 & E2 & S2 & _); [destruct S1 as [-> _]; lia|]. exists M2. split; [exact E2|eapply ss_trans; eauto].
Qed.
(** the right-hand side is zero outside the rows [start, e) *)
Lemma arrowLSolve_sz up (diag side : list blk) v start e : arrow_sz up diag side -> tip_fits up diag -> brow v = total diag ->
  (forall i j, (i < brow v)%nat -> ~ (start <= i < (match e with Some e => e | None => brow v end))%nat -> bm v i j = zero S) ->
  exists M', blockArrowLSolve isz diag side up v start e = Ok M' /\ same_size v M'.
Proof.
  intros HA HT HM HZ. unfold blockArrowLSolve. set (e' := match e with Some e => e | None => brow v end) in *. pose proof HA as (ds & Db & E & EJ & H1 & H2 & HL).
  destruct up.
  - cbn [arrow_join] in EJ. rewrite <- EJ in *. cbn [total] in HM. rewrite guard_t by (apply leb_t; lia). 
    assert (K : forall i, (forall ds0 Db0, arrow_split true (Db :: ds) = Some (ds0, Db0) -> (i < total ds0)%nat) -> (i < total ds)%nat) by (intros i Hi; exact (Hi ds Db eq_refl)).
    destruct (arrow_lsolve__sz true (Db :: ds) side (rotate_up (brow Db) v) (start - brow Db) (e' - brow Db) HA HT) as (M' & EM & SM).
    + exact HM.
    + intros i j Hi Hd. apply K in Hd. cbn [rotate_up bm]. rewrite ltb_t by lia. apply HZ; lia.
    + intros i j Hi Hd. apply K in Hd. cbn [rotate_up bm]. rewrite ltb_t by lia. apply HZ; lia.
    + exists M'. split; [exact EM|]. exact SM.
  - assert (K : forall i, (forall ds0 Db0, arrow_split false diag = Some (ds0, Db0) -> (i < total ds0)%nat) -> (i < total ds)%nat) by (intros i Hi; apply (Hi ds Db E)).
    assert (Et : total diag = (total ds + brow Db)%nat) by (rewrite <- EJ; apply (total_join false)).
    apply arrow_lsolve__sz; auto; intros i j Hi Hd; apply K in Hd; apply HZ; lia.
Qed.
(** without hint, for the transposed solve *)
Lemma arrow_ltsolve_sz up zero nb : forall ds ss n (M : blk), arr_sz up ds ss nb -> (n + total ds + nb = brow M)%nat ->
  exists M', arrow_ltsolve_loop up 0 (brow M) zero nb ds ss n M = Ok M' /\ same_size M M' /\ (nulM M -> nulM M').
Proof.
  intros ds ss n M. remember (brow M) as e eqn:He. revert ss n M He.
  induction ds as [|D ds IH]; intros ss n M He H HT; destruct ss as [|X ss]; cbn [arr_sz] in H; try contradiction; cbn [arrow_ltsolve_loop total] in *.
  - exists M. split; [reflexivity|]. split; [apply ss_refl|auto].
  - destruct H as (H1 & H2 & H3 & H4). rewrite guard_t by (rewrite eqb_t, leb_t by (exact H1 || lia); reflexivity). cbv zeta.
    destruct (zero && (n + brow D <=? 0))%nat; [apply IH; auto; lia|].
    assert (HR : exists M1, (if zero then Ok M else guard ((bcol (get_B up X) =? brow D) && (brow (get_B up X) =? nb))%nat (rows_sub n (brow D) (fun i k => bm (get_B up X) k i) (brow M - nb) nb M)) = Ok M1 /\ same_size M M1 /\ (nulM M -> nulM M1)).
    { destruct zero; [exists M; split; [reflexivity|]; split; [apply ss_refl|auto]|]. rewrite guard_t by (rewrite !eqb_t; auto).
      destruct (rows_sub_sz n (brow D) (fun i k => bm (get_B up X) k i) (brow M - nb) nb M) as (M1 & E & HM & _ & K); [lia|lia|]. exists M1. auto. }
    destruct HR as (M1 & -> & HM & K). cbn [bind]. rewrite leb_t by lia. rewrite leb_t by lia.
    pose proof HM as [Eb _]. destruct (rows_solve_t_sz n (brow D) (bm D) M1) as (M2 & E2 & HM2 & _ & K2); [lia|]. rewrite E2. cbn [bind]. pose proof HM2 as [Eb2 _].
    destruct (IH ss (n + brow D)%nat M2) as (M3 & E3 & HM3 & K3); [congruence|auto|lia|]. exists M3. split; [exact E3|]. split; [eapply ss_trans; [exact HM|eapply ss_trans; eauto]|auto].
Qed.
Lemma arrowLtSolve_sz up (diag side : list blk) v : arrow_sz up diag side -> brow v = total diag ->
  exists M', blockArrowLTransposeSolve diag side up v 0 None = Ok M' /\ same_size v M' /\ (nulM v -> nulM M').
Proof.
  intros (ds & Db & E & EJ & H1 & H2 & HL) HM.
  assert (Et : total diag = (total ds + brow Db)%nat) by (rewrite <- EJ; apply total_join).
  assert (HS : exists M', arrow_ltsolve_ up diag side v 0 (brow v) = Ok M' /\ same_size v M' /\ (nulM v -> nulM M')).
  { unfold arrow_ltsolve_. rewrite E. cbv zeta. rewrite guard_t by (rewrite leb_t, eqb_t by (exact H2 || lia); reflexivity).
    assert (HR : exists M1 z, (if (brow v - brow Db <? brow v)%nat then guard (brow v + brow Db - brow v <=? brow Db)%nat (do M0 <- rows_solve_t (brow v - brow Db) (brow v + brow Db - brow v) (bm Db) v; Ok (M0, false)) else Ok (v, true)) = Ok (M1, z) /\ same_size v M1 /\ (nulM v -> nulM M1)).
    { destruct (brow v - brow Db <? brow v)%nat; [|exists v, true; split; [reflexivity|]; split; [apply ss_refl|auto]]. rewrite guard_t by (apply leb_t; lia).
      destruct (rows_solve_t_sz (brow v - brow Db) (brow v + brow Db - brow v) (bm Db) v) as (M1 & E1 & S1 & _ & K1); [lia|]. rewrite E1. cbn [bind]. exists M1, false. auto. }
    destruct HR as (M1 & z & -> & S1 & K1). cbn [bind fst snd]. pose proof S1 as [Eb _]. rewrite <- Eb.
    destruct (arrow_ltsolve_sz up z (brow Db) ds side 0 M1 H1) as (M2 & E2 & S2 & K2); [lia|]. exists M2. split; [exact E2|]. split; [eapply ss_trans; eauto|auto]. }
  unfold blockArrowLTransposeSolve. destruct HS as (M' & EM & SM & KM). destruct up; [|exists M'; auto]. cbn [arrow_join] in EJ. rewrite EM. cbn [bind]. rewrite <- EJ. pose proof SM as [Eb Ec].
  rewrite guard_t by (apply leb_t; lia). eexists. split; [reflexivity|]. split; [split; cbn [rotate_down brow bcol]; auto|].
  intros HV i j Hi. cbn [rotate_down brow bm] in *. destruct (i <? brow Db)%nat eqn:Ei; [apply Nat.ltb_lt in Ei; apply KM; auto; lia|apply KM; auto; lia].
Qed.
End Gen.

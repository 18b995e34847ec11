(** Correctness of the block Cholesky factorisations (exact arithmetic). *)
From Coq Require Import List Arith ZArith Lia Bool Reals Lra.
From Verif Require Import Base Num LinAlg Block BlockElim BlockSpec.
Import ListNotations.
Local Open Scope R_scope.

Lemma fwd_ext' n Lm (v w : rvec) : (forall i, (i < n)%nat -> v i = w i) -> forall k i, (k <= n)%nat -> (i < n)%nat -> @fwd Rops k Lm v i = @fwd Rops k Lm w i.
Proof.
  intros H. induction k as [|k IH]; intros i Hk Hi; simpl; auto.
  unfold upd. destruct (Nat.eqb_spec i k); [|apply IH; lia]. rewrite H by lia. f_equal. apply subn_ext. intros j Hj. rewrite IH by lia. reflexivity.
Qed.
Lemma fwd_zero n Lm : forall i, (i < n)%nat -> @fwd Rops n Lm (fun _ => 0) i = 0.
Proof.
  assert (H : forall k i, @fwd Rops k Lm (fun _ => 0) i = 0).
  { induction k as [|k IH]; intros i; simpl; auto. unfold upd. destruct (Nat.eqb_spec i k); auto.
    rops. fold rsum. rewrite (sum_zero k) by (intros; rewrite IH; lra). unfold Rdiv. lra. }
  intros; apply H.
Qed.

Lemma blk_llt_spec (D : rblk) : brow D = bcol D -> exists z Lm, blk_llt D = Ok (z, Bk (brow D) (bcol D) Lm) /\
  (forall i j, (i < j)%nat -> Lm i j = bm D i j) /\
  ((z = -1)%Z /\ llt_inv (brow D) (brow D) (bm D) Lm \/
   (z = 0)%Z /\ (0 < brow D)%nat /\ Lm 0%nat 0%nat <= 0 /\ ~ posdef (brow D) (gsym (bm D)) \/
   (0 < z)%Z /\ ~ posdef (brow D) (gsym (bm D))).
Proof.
  intros Hs. unfold blk_llt, guard. rewrite (proj2 (Nat.eqb_eq _ _) Hs).
  pose proof (llt_spec (brow D) (bm D)) as HL. destruct (llt (brow D) (bm D)) as ([k|] & Lm); cbn [fst snd eigen_ret].
  - destruct HL as (Hk & HI & Hle). exists (Z.of_nat k), Lm. split; [reflexivity|]. split; [intros i j Hij; destruct HI as (_ & _ & H3); apply H3; auto|]. right.
    assert (HN : ~ posdef (brow D) (gsym (bm D))).
    { intros HP. destruct (llt_failure_witness _ _ _ _ Hk HI Hle) as (v & Hv & Hq). specialize (HP v Hv). lra. }
    destruct k as [|k]; [left|right].
    + split; [reflexivity|]. split; [auto|]. split; [|exact HN]. destruct HI as (_ & _ & H3). rewrite (H3 0%nat 0%nat) by lia. rewrite sum_0 in Hle. lra.
    + split; [lia|exact HN].
  - exists (-1)%Z, Lm. split; [reflexivity|]. split; [intros i j Hij; destruct HL as (_ & _ & H3); apply H3; auto|]. left; auto.
Qed.
Lemma solve_right_spec (n : nat) Lm (B : rblk) : bcol B = n -> exists X, solve_right (Bk n n Lm) B = Ok (Bk (brow B) (bcol B) X) /\
  forall i j, X i j = @fwd Rops n Lm (bm B i) j.
Proof.
  intros Hs. unfold solve_right, guard. cbn [brow bcol bm]. rewrite Nat.eqb_refl, (proj2 (Nat.eqb_eq _ _) (eq_sym Hs)). cbn [andb].
  eexists. split; [reflexivity|]. intros. cbn beta. rewrite Hs. reflexivity.
Qed.
Lemma rank_update_spec (D : rblk) r c X : brow D = bcol D -> r = brow D -> exists E, rank_update D (Bk r c X) = Ok (Bk (brow D) (bcol D) E) /\
  (forall i j, (i < j)%nat -> E i j = bm D i j) /\ (forall i j, (j <= i)%nat -> E i j = bm D i j - rsum c (fun k => X i k * X j k)).
Proof.
  intros Hs ->. unfold rank_update, guard. cbn [brow bcol bm]. rewrite Nat.eqb_refl, (proj2 (Nat.eqb_eq _ _) Hs). cbn [andb].
  eexists. split; [reflexivity|]. split; intros i j H; cbn beta.
  - rewrite (proj2 (Nat.leb_gt _ _)) by auto. reflexivity.
  - rewrite (proj2 (Nat.leb_le _ _)) by auto. reflexivity.
Qed.

Lemma tri_low_first ss : forall (D : rblk) ds (E : rmat), tri_sizes D ds ss ->
  forall i j, (i < brow D + total ds)%nat -> (j < brow D + total ds)%nat ->
  tri_low (Bk (brow D) (bcol D) E) ds ss i j = if (i <? brow D)%nat && (j <? brow D)%nat then E i j else tri_low D ds ss i j.
Proof.
  intros D ds E Hs i j Hi Hj. destruct ss as [|B ss], ds as [|D1 ds]; simpl in *; try tauto.
  - rewrite !(proj2 (Nat.ltb_lt _ _)) by lia. reflexivity.
  - unfold blk2. cbn [brow bm]. destruct (i <? brow D)%nat, (j <? brow D)%nat; reflexivity.
Qed.
Lemma tri_low_first' ss : forall (D : rblk) ds, tri_sizes D ds ss -> forall i j, (i < brow D)%nat -> (j < brow D)%nat -> tri_low D ds ss i j = bm D i j.
Proof.
  intros D ds Hs i j Hi Hj. destruct ss as [|B ss], ds as [|D1 ds]; simpl in *; try tauto. apply blk2_00; auto.
Qed.
Lemma tri_sizes_first ss (D : rblk) ds E : tri_sizes D ds ss -> tri_sizes (Bk (brow D) (bcol D) E) ds ss.
Proof. destruct ss, ds; simpl; tauto. Qed.

(** the effect of the rank update of the first block on the symmetric matrix *)
Lemma tri_update ss (D1 : rblk) ds (E X : rmat) n : tri_sizes D1 ds ss ->
  (forall i j, (j <= i)%nat -> E i j = bm D1 i j - rsum n (fun k => X i k * X j k)) ->
  forall i j, (i < brow D1 + total ds)%nat -> (j < brow D1 + total ds)%nat ->
  gsym (tri_low D1 ds ss) i j = gsym (tri_low (Bk (brow D1) (bcol D1) E) ds ss) i j +
     rsum n (fun k => pad_below (brow D1) X i k * pad_below (brow D1) X j k).
Proof.
  intros Hs HE.
  assert (HH : forall i j, (i < brow D1 + total ds)%nat -> (j <= i)%nat ->
     tri_low D1 ds ss i j = tri_low (Bk (brow D1) (bcol D1) E) ds ss i j + rsum n (fun k => pad_below (brow D1) X i k * pad_below (brow D1) X j k)).
  { intros i j Hi Hj. rewrite tri_low_first by (auto; lia). unfold pad_below.
    destruct (Nat.ltb_spec i (brow D1)) as [Hi1|Hi1]; destruct (Nat.ltb_spec j (brow D1)) as [Hj1|Hj1]; try lia; cbn [andb].
    - rewrite HE by auto. rewrite (tri_low_first' ss D1 ds Hs i j) by auto. lra.
    - rewrite (sum_zero n) by (intros; lra). lra.
    - rewrite (sum_zero n) by (intros; lra). lra. }
  intros i j Hi Hj. unfold gsym. destruct (Nat.leb_spec j i); [apply HH; auto|].
  rewrite HH by (auto; lia). f_equal. apply sum_ext. intros. lra.
Qed.
Lemma rows_zero_below r (n : nat) (Lm : rmat) (Kb X : rmat) : (forall i j, X i j = @fwd Rops n Lm (Kb i) j) -> (forall i, (i < n)%nat -> Lm i i <> 0) ->
  forall i j, (j < n)%nat -> rsum n (fun t => lower Lm j t * pad_below r X i t) = pad_below r Kb i j.
Proof.
  intros HX HL i j Hj. unfold pad_below. destruct (Nat.ltb_spec i r).
  - rewrite (sum_ext n _ (fun t => lower Lm j t * @fwd Rops n Lm (Kb i) t)) by (intros; rewrite HX; reflexivity). apply fwd_correct; auto.
  - apply sum_zero. intros. lra.
Qed.

Definition all_sizes (ds : list rblk) : list (nat * nat) := map (fun D => (brow D, bcol D)) ds.

Theorem tri_llt_loop_correct : forall ss (D : rblk) ds, tri_sizes D ds ss ->
  exists ok D' dl bl, tri_llt_loop D ds ss = Ok (ok, D' :: dl, bl) /\
   brow D' = brow D /\ total dl = total ds /\ tri_sizes D' dl bl /\ Forall2 same_upper (D :: ds) (D' :: dl) /\ all_sizes bl = all_sizes ss /\
   (ok = true /\ Forall head_pos (D' :: dl) <-> posdef (brow D + total ds) (gsym (tri_low D ds ss))) /\
   (posdef (brow D + total ds) (gsym (tri_low D ds ss)) -> cholesky_factor (brow D + total ds) (tri_low D ds ss) (tri_low D' dl bl)).
Proof.
  induction ss as [|B ss IH]; intros D ds Hs.
  - destruct ds as [|D1 ds]; [|destruct Hs as [_ []]]. destruct Hs as [Hs _].
    destruct (blk_llt_spec D Hs) as (z & Lm & E & Hup & HZ). cbn [tri_llt_loop]. rewrite E. cbn [bind fst snd].
    exists (negb (0 <? z)%Z), (Bk (brow D) (bcol D) Lm), [], []. cbn [total tri_low brow bcol bm all_sizes map tri_sizes].
    split; [reflexivity|]. split; [reflexivity|]. split; [reflexivity|]. split; [auto|]. split; [constructor; [split; auto|constructor]|]. split; [reflexivity|]. rewrite Nat.add_0_r.
    destruct HZ as [[-> HL]|[(-> & Hn & Hle & HN)|[Hz HN]]].
    + split; [|intros _; split; [apply (llt_diag_pos _ _ _ HL)|apply (llt_inv_full _ _ _ HL)]].
      split; [intros _; apply (llt_success_posdef _ _ _ HL)|]. intros _. split; [reflexivity|]. constructor; [|constructor].
      unfold head_pos. cbn [brow bm]. destruct (Nat.eq_dec (brow D) 0); [left; auto|right]. apply (llt_diag_pos _ _ _ HL). lia.
    + split; [|intros HP; contradiction]. split; [|intros HP; contradiction]. intros [_ HF]. inversion HF as [|? ? [H|H] _]; subst; cbn [brow bm] in H; [lia|lra].
    + split; [|intros HP; contradiction]. rewrite (proj2 (Z.ltb_lt _ _) Hz). split; [|intros HP; contradiction]. intros [H _]. discriminate.
  - destruct ds as [|D1 ds]; [destruct Hs as [_ []]|]. destruct Hs as (Hs & HB1 & HB2 & Hs1).
    assert (Hs1' : brow D1 = bcol D1) by (destruct ss, ds; simpl in Hs1; tauto).
    destruct (blk_llt_spec D Hs) as (z & Lm & E & Hup & HZ). cbn [tri_llt_loop]. rewrite E. cbn [bind fst snd].
    set (n := brow D) in *. cbn [total]. set (p := (brow D1 + total ds)%nat).
    destruct (0 <? z)%Z eqn:Ez.
    { destruct HZ as [[-> _]|[[-> _]|[Hz HN]]]; try discriminate.
      assert (HN' : ~ posdef (n + p) (gsym (tri_low D (D1 :: ds) (B :: ss)))) by (intros HP; apply HN; cbn [tri_low] in HP; apply posdef_leading in HP; exact HP).
      exists false, (Bk n (bcol D) Lm), (D1 :: ds), (B :: ss). split; [reflexivity|]. split; [reflexivity|]. split; [reflexivity|]. split; [simpl; auto|].
      split. { constructor; [split; auto|]. clear. induction (D1 :: ds); constructor; auto. split; auto. }
      split; [reflexivity|]. split; [|intros HP; contradiction]. split; [|intros HP; contradiction]. intros [H _]; discriminate. }
    rewrite <- Hs. destruct (solve_right_spec n Lm B HB2) as (X & EX & HX). rewrite EX. cbn [bind].
    destruct (rank_update_spec D1 (brow B) (bcol B) X Hs1' HB1) as (E1 & EE & HEu & HEl). rewrite EE. cbn [bind].
    set (D1' := Bk (brow D1) (bcol D1) E1).
    destruct (IH D1' ds (tri_sizes_first ss D1 ds E1 Hs1)) as (ok & D' & dl & bl & ER & Hr & Ht & Hsz & HF & Hbl & Hiff & Hch).
    rewrite ER. cbn [bind]. exists ok, (Bk n n Lm), (D' :: dl), (Bk (brow B) (bcol B) X :: bl).
    cbn [brow total D1'] in Hr, Ht, Hiff, Hch. fold p in Hiff, Hch.
    split; [reflexivity|]. split; [reflexivity|]. split; [cbn [total]; unfold p; lia|].
    split. { simpl. repeat split; auto. lia. }
    split. { constructor; [split; [reflexivity|split; [exact Hs|exact Hup]]|]. inversion HF as [|? ? ? ? (H1 & H2 & H3) H4]; subst. constructor; [|exact H4].
      cbn [D1' brow bcol bm] in *. split; [exact H1|]. split; [exact H2|]. intros i j Hij. rewrite H3 by auto. apply HEu. auto. }
    split; [simpl; f_equal; auto|].
    destruct HZ as [[-> HL]|[(-> & Hn & Hle & HN)|[Hz HN]]].
    + (* regular step *)
      assert (Hd : forall i, (i < n)%nat -> Lm i i <> 0) by (intros i Hi; pose proof (llt_diag_pos _ _ _ HL i Hi); lra).
      assert (HKB : forall i j, (i < p)%nat -> (j < n)%nat -> rsum n (fun t => lower Lm j t * pad_below (brow D1) X i t) = pad_below (brow D1) (bm B) i j).
      { intros i j _ Hj. apply rows_zero_below; auto. }
      assert (HEE : forall i j, (i < p)%nat -> (j < p)%nat -> gsym (tri_low D1 ds ss) i j = gsym (tri_low D1' ds ss) i j + rsum n (fun k => pad_below (brow D1) X i k * pad_below (brow D1) X j k)).
      { intros i j Hi Hj. apply tri_update; auto. intros a b Hab. rewrite HEl by auto. rewrite HB2. reflexivity. }
      pose proof (elim_posdef n p (bm D) (pad_below (brow D1) (bm B)) (tri_low D1 ds ss) Lm (pad_below (brow D1) X) (tri_low D1' ds ss) HL HKB HEE) as HP.
      cbn [tri_low]. fold n. rewrite HB1. split.
      * rewrite HP, <- Hiff. split; [intros [H1 H2]; inversion H2; auto|]. intros [H1 H2]. split; auto. constructor; auto.
        unfold head_pos. cbn [brow bm]. destruct (Nat.eq_dec n 0); [left; auto|right]. apply (llt_diag_pos _ _ _ HL). lia.
      * intros HPd. apply HP in HPd. destruct (Hch HPd) as [HC1 HC2]. cbn [brow bm]. split.
        -- intros i Hi. destruct (Nat.lt_ge_cases i n); [rewrite blk2_00 by auto; apply (llt_diag_pos _ _ _ HL); auto|].
           replace i with (n + (i - n))%nat by lia. rewrite blk2_11. apply HC1. lia.
        -- apply (elim_gram n p (bm D) (pad_below (brow D1) (bm B)) (tri_low D1 ds ss) Lm (pad_below (brow D1) X) (tri_low D1' ds ss) HL HKB HEE). exact HC2.
    + assert (HN' : ~ posdef (n + p) (gsym (tri_low D (D1 :: ds) (B :: ss)))) by (intros HP; apply HN; cbn [tri_low] in HP; apply posdef_leading in HP; exact HP).
      split; [|intros HP; contradiction]. split; [|intros HP; contradiction]. intros [_ HF1]. inversion HF1 as [|? ? [H|H] _]; subst; cbn [brow bm] in H; [fold n in H; lia|lra].
    + rewrite (proj2 (Z.ltb_lt _ _) Hz) in Ez. discriminate.
Qed.

(** ** Arrow matrices *)
Lemma arrow_low_last ds : forall bs (Db : rblk) (E : rmat), arrow_sizes ds bs Db ->
  forall i j, (i < total ds + brow Db)%nat -> (j < total ds + brow Db)%nat ->
  arrow_low ds bs (Bk (brow Db) (bcol Db) E) i j =
    if (total ds <=? i)%nat && (total ds <=? j)%nat then E (i - total ds)%nat (j - total ds)%nat else arrow_low ds bs Db i j.
Proof.
  induction ds as [|D ds IH]; intros [|B bs] Db E Hs i j Hi Hj; simpl in Hs; try tauto.
  - cbn [arrow_low total bm Nat.leb andb]. rewrite !Nat.sub_0_r. reflexivity.
  - cbn [arrow_low total] in *. destruct Hs as (_ & _ & _ & Hs). unfold blk2.
    destruct (Nat.ltb_spec i (brow D)) as [Hi1|Hi1].
    { rewrite (proj2 (Nat.leb_gt _ i)) by lia. reflexivity. }
    destruct (Nat.ltb_spec j (brow D)) as [Hj1|Hj1].
    { rewrite (proj2 (Nat.leb_gt _ j)) by lia. rewrite andb_false_r. reflexivity. }
    rewrite IH by (auto; lia).
    destruct (Nat.leb_spec (total ds) (i - brow D)), (Nat.leb_spec (brow D + total ds) i); try lia; cbn [andb]; auto.
    destruct (Nat.leb_spec (total ds) (j - brow D)), (Nat.leb_spec (brow D + total ds) j); try lia; cbn [andb]; auto.
    f_equal; lia.
Qed.
Lemma arrow_low_last' ds : forall bs (Db : rblk), arrow_sizes ds bs Db ->
  forall i j, arrow_low ds bs Db (total ds + i)%nat (total ds + j)%nat = bm Db i j.
Proof.
  induction ds as [|D ds IH]; intros [|B bs] Db Hs i j; simpl in Hs; try contradiction.
  - reflexivity.
  - cbn [arrow_low total]. rewrite <- !Nat.add_assoc, blk2_11. apply IH. tauto.
Qed.
Lemma arrow_sizes_last ds : forall bs (Db : rblk) E, arrow_sizes ds bs Db -> arrow_sizes ds bs (Bk (brow Db) (bcol Db) E).
Proof. induction ds as [|D ds IH]; intros [|B bs] Db E; simpl; try tauto. intros (H1 & H2 & H3 & H4). auto. Qed.
Lemma arrow_update ds bs (Db : rblk) (E X : rmat) n : arrow_sizes ds bs Db ->
  (forall i j, (j <= i)%nat -> E i j = bm Db i j - rsum n (fun k => X i k * X j k)) ->
  forall i j, (i < total ds + brow Db)%nat -> (j < total ds + brow Db)%nat ->
  gsym (arrow_low ds bs Db) i j = gsym (arrow_low ds bs (Bk (brow Db) (bcol Db) E)) i j +
     rsum n (fun k => pad_above (total ds) X i k * pad_above (total ds) X j k).
Proof.
  intros Hs HE.
  assert (HH : forall i j, (i < total ds + brow Db)%nat -> (j <= i)%nat ->
     arrow_low ds bs Db i j = arrow_low ds bs (Bk (brow Db) (bcol Db) E) i j + rsum n (fun k => pad_above (total ds) X i k * pad_above (total ds) X j k)).
  { intros i j Hi Hj. rewrite arrow_low_last by (auto; lia). unfold pad_above.
    destruct (Nat.ltb_spec j (total ds)) as [Hj1|Hj1]; destruct (Nat.leb_spec (total ds) j) as [Hj2|Hj2]; try lia.
    - rewrite andb_false_r. rewrite (sum_zero n) by (intros; lra). lra.
    - destruct (Nat.ltb_spec i (total ds)) as [Hi1|Hi1]; destruct (Nat.leb_spec (total ds) i) as [Hi2|Hi2]; try lia. cbn [andb].
      rewrite HE by lia. pose proof (arrow_low_last' ds bs Db Hs (i - total ds) (j - total ds)) as HA.
      replace (total ds + (i - total ds))%nat with i in HA by lia. replace (total ds + (j - total ds))%nat with j in HA by lia. rewrite HA. lra. }
  intros i j Hi Hj. unfold gsym. destruct (Nat.leb_spec j i); [apply HH; auto|].
  rewrite HH by (auto; lia). f_equal. apply sum_ext. intros. lra.
Qed.
Lemma rows_zero_above r (n : nat) (Lm : rmat) (Kb X : rmat) : (forall i j, X i j = @fwd Rops n Lm (Kb i) j) -> (forall i, (i < n)%nat -> Lm i i <> 0) ->
  forall i j, (j < n)%nat -> rsum n (fun t => lower Lm j t * pad_above r X i t) = pad_above r Kb i j.
Proof.
  intros HX HL i j Hj. unfold pad_above. destruct (Nat.ltb_spec i r).
  - apply sum_zero. intros. lra.
  - rewrite (sum_ext n _ (fun t => lower Lm j t * @fwd Rops n Lm (Kb (i - r)%nat) t)) by (intros; rewrite HX; reflexivity). apply fwd_correct; auto.
Qed.
Lemma get_B_solve up (n : nat) Lm (X : rblk) : bcol (get_B up X) = n -> exists X',
  (if up then solve_left (Bk n n Lm) X else solve_right (Bk n n Lm) X) = Ok X' /\ brow X' = brow X /\ bcol X' = bcol X /\
  forall i j, bm (get_B up X') i j = @fwd Rops n Lm (bm (get_B up X) i) j.
Proof.
  intros Hs. destruct up; cbn [get_B tblk brow bcol bm] in *.
  - unfold solve_left, guard. cbn [brow bcol bm]. rewrite Nat.eqb_refl, (proj2 (Nat.eqb_eq _ _) (eq_sym Hs)). cbn [andb].
    eexists. split; [reflexivity|]. cbn [brow bcol bm]. split; auto. split; auto. intros. rewrite Hs. reflexivity.
  - destruct (solve_right_spec n Lm X Hs) as (X' & E & H). eexists. split; [exact E|]. auto.
Qed.

Theorem arrow_llt_loop_correct up : forall ss ds (Db : rblk), arrow_sizes ds (map (get_B up) ss) Db ->
  exists ok dl sl Db', arrow_llt_loop up ds ss Db = Ok (ok, dl, sl, Db') /\
   total dl = total ds /\ arrow_sizes dl (map (get_B up) sl) Db' /\ Forall2 same_upper ds dl /\ same_upper Db Db' /\ all_sizes sl = all_sizes ss /\
   (ok = true /\ Forall head_pos (Db' :: dl) <-> posdef (total ds + brow Db) (gsym (arrow_low ds (map (get_B up) ss) Db))) /\
   (posdef (total ds + brow Db) (gsym (arrow_low ds (map (get_B up) ss) Db)) ->
      cholesky_factor (total ds + brow Db) (arrow_low ds (map (get_B up) ss) Db) (arrow_low dl (map (get_B up) sl) Db')).
Proof.
  induction ss as [|X ss IH]; intros ds Db Hs.
  - destruct ds as [|D ds]; [|destruct Hs]. cbn [map arrow_sizes] in Hs.
    destruct (blk_llt_spec Db Hs) as (z & Lm & E & Hup & HZ). cbn [arrow_llt_loop]. rewrite E. cbn [bind fst snd].
    exists (z <=? 0)%Z, [], [], (Bk (brow Db) (bcol Db) Lm). cbn [total arrow_low brow bcol bm all_sizes map arrow_sizes Nat.add].
    split; [reflexivity|]. split; [reflexivity|]. split; [auto|]. split; [constructor|]. split; [split; auto|]. split; [reflexivity|].
    destruct HZ as [[-> HL]|[(-> & Hn & Hle & HN)|[Hz HN]]].
    + split; [|intros _; split; [apply (llt_diag_pos _ _ _ HL)|apply (llt_inv_full _ _ _ HL)]].
      split; [intros _; apply (llt_success_posdef _ _ _ HL)|]. intros _. split; [reflexivity|]. constructor; [|constructor].
      unfold head_pos. cbn [brow bm]. destruct (Nat.eq_dec (brow Db) 0); [left; auto|right]. apply (llt_diag_pos _ _ _ HL). lia.
    + split; [|intros HP; contradiction]. split; [|intros HP; contradiction]. intros [_ HF]. inversion HF as [|? ? [H|H] _]; subst; cbn [brow bm] in H; [lia|lra].
    + split; [|intros HP; contradiction]. rewrite (proj2 (Z.leb_gt _ _) Hz). split; [|intros HP; contradiction]. intros [H _]. discriminate.
  - destruct ds as [|D ds]; [destruct Hs|]. cbn [map arrow_sizes] in Hs. destruct Hs as (Hs & HB1 & HB2 & Hs1). set (B := get_B up X) in *.
    assert (HDb : brow Db = bcol Db). { clear -Hs1. revert Hs1. generalize (map (get_B up) ss). induction ds as [|D ds IH]; intros [|B bs]; simpl; try tauto. intros (_ & _ & _ & H). eauto. }
    destruct (blk_llt_spec D Hs) as (z & Lm & E & Hup & HZ). cbn [arrow_llt_loop]. rewrite E. cbn [bind fst snd].
    set (n := brow D) in *. cbn [total map]. fold n B. set (p := (total ds + brow Db)%nat). rewrite <- Nat.add_assoc. fold p.
    destruct (0 <? z)%Z eqn:Ez.
    { destruct HZ as [[-> _]|[[-> _]|[Hz HN]]]; try discriminate.
      assert (HN' : ~ posdef (n + p) (gsym (arrow_low (D :: ds) (B :: map (get_B up) ss) Db))) by (intros HP; apply HN; cbn [arrow_low] in HP; apply posdef_leading in HP; exact HP).
      exists false, (Bk n (bcol D) Lm :: ds), (X :: ss), Db. split; [reflexivity|]. split; [reflexivity|]. split; [simpl; auto|].
      split. { constructor; [split; auto|]. clear. induction ds; constructor; auto. split; auto. }
      split; [split; auto|]. split; [reflexivity|]. split; [|intros HP; contradiction]. split; [|intros HP; contradiction]. intros [H _]; discriminate. }
    rewrite <- Hs. destruct (get_B_solve up n Lm X HB2) as (X' & EX & Hr' & Hc' & HX). rewrite EX. cbn [bind]. fold B in HX. set (B' := get_B up X') in *.
    assert (HBr : brow B' = brow B) by (unfold B', B; destruct up; cbn [get_B tblk brow bcol] in *; auto).
    assert (HBc : bcol B' = bcol B) by (unfold B', B; destruct up; cbn [get_B tblk brow bcol] in *; auto).
    destruct (rank_update_spec Db (brow B') (bcol B') (bm B') HDb) as (E1 & EE & HEu & HEl); [congruence|].
    replace (Bk (brow B') (bcol B') (bm B')) with B' in EE by (destruct B'; reflexivity). rewrite EE. cbn [bind].
    set (Db1 := Bk (brow Db) (bcol Db) E1).
    destruct (IH ds Db1 (arrow_sizes_last ds _ Db E1 Hs1)) as (ok & dl & sl & Db' & ER & Ht & Hsz & HF & Hup' & Hbl & Hiff & Hch).
    rewrite ER. cbn [bind]. exists ok, (Bk n n Lm :: dl), (X' :: sl), Db'.
    cbn [brow Db1] in Hiff, Hch. fold p in Hiff, Hch.
    destruct Hup' as (Hu1 & Hu2 & Hu3). cbn [Db1 brow bcol bm] in Hu1, Hu2, Hu3.
    split; [reflexivity|]. split; [cbn [total brow]; lia|].
    split. { cbn [map arrow_sizes brow bcol]. fold B'. rewrite HBr, HBc. repeat split; auto. congruence. }
    split. { constructor; [split; [reflexivity|split; [exact Hs|exact Hup]]|exact HF]. }
    split. { split; [exact Hu1|]. split; [exact Hu2|]. intros i j Hij. rewrite Hu3 by auto. apply HEu. auto. }
    split; [simpl; rewrite Hr', Hc'; f_equal; auto|].
    cbn [map]. fold B'.
    destruct HZ as [[-> HL]|[(-> & Hn & Hle & HN)|[Hz HN]]].
    + assert (Hd : forall i, (i < n)%nat -> Lm i i <> 0) by (intros i Hi; pose proof (llt_diag_pos _ _ _ HL i Hi); lra).
      set (bs := map (get_B up) ss) in *. set (r := total ds) in *.
      assert (HKB : forall i j, (i < p)%nat -> (j < n)%nat -> rsum n (fun t => lower Lm j t * pad_above r (bm B') i t) = pad_above r (bm B) i j).
      { intros i j _ Hj. apply rows_zero_above; auto. }
      assert (HEE : forall i j, (i < p)%nat -> (j < p)%nat -> gsym (arrow_low ds bs Db) i j = gsym (arrow_low ds bs Db1) i j + rsum n (fun k => pad_above r (bm B') i k * pad_above r (bm B') j k)).
      { intros i j Hi Hj. apply arrow_update; auto. intros a b Hab. rewrite HEl by auto. rewrite HBc, HB2. reflexivity. }
      pose proof (elim_posdef n p (bm D) (pad_above r (bm B)) (arrow_low ds bs Db) Lm (pad_above r (bm B')) (arrow_low ds bs Db1) HL HKB HEE) as HP.
      cbn [arrow_low]. fold n. fold r. cbn [brow bm]. rewrite Ht. split.
      * rewrite HP, <- Hiff. split; [intros [H1 H2]; inversion H2 as [|? ? H3 H4]; inversion H4; auto|]. intros [H1 H2]. inversion H2 as [|? ? H3 H4]. split; auto. constructor; auto. constructor; auto.
        unfold head_pos. cbn [brow bm]. destruct (Nat.eq_dec n 0); [left; auto|right]. apply (llt_diag_pos _ _ _ HL). lia.
      * intros HPd. apply HP in HPd. destruct (Hch HPd) as [HC1 HC2]. split.
        -- intros i Hi. destruct (Nat.lt_ge_cases i n); [rewrite blk2_00 by auto; apply (llt_diag_pos _ _ _ HL); auto|].
           replace i with (n + (i - n))%nat by lia. rewrite blk2_11. apply HC1. lia.
        -- apply (elim_gram n p (bm D) (pad_above r (bm B)) (arrow_low ds bs Db) Lm (pad_above r (bm B')) (arrow_low ds bs Db1) HL HKB HEE). exact HC2.
    + assert (HN' : ~ posdef (n + p) (gsym (arrow_low (D :: ds) (B :: map (get_B up) ss) Db))) by (intros HP; apply HN; cbn [arrow_low] in HP; apply posdef_leading in HP; exact HP).
      split; [|intros HP; contradiction]. split; [|intros HP; contradiction]. intros [_ HF1]. inversion HF1 as [|? ? _ H4]. inversion H4 as [|? ? [Hh|Hh] _]; subst; cbn [brow bm] in Hh; [fold n in Hh; lia|lra].
    + rewrite (proj2 (Z.ltb_lt _ _) Hz) in Ez. discriminate.
Qed.

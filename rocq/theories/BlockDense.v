(** Dense meaning of lists of blocks, by positions (the specification used by the
    statements of PropBlock.v), and its agreement with the recursive one of
    BlockSpec.v used by the proofs. *)
From Coq Require Import List Arith ZArith Lia Bool Reals Lra.
From Verif Require Import Base Num LinAlg Block BlockElim BlockSpec BlockLLT BlockSolve.
Import ListNotations.
Local Open Scope R_scope.

(** ** Specification *)
Definition square {S : ops} (D : blk S) : Prop := brow D = bcol D.
(** first row of block [k] *)
Definition off {S : ops} (ds : list (blk S)) (k : nat) : nat := total (firstn k ds).

(** sizes of the blocks of a block tridiagonal matrix *)
Definition tri_ok {S : ops} (diag sub : list (blk S)) : Prop :=
  length diag = (length sub + 1)%nat /\ Forall square diag /\
  (forall k B D D1, nth_error sub k = Some B -> nth_error diag k = Some D -> nth_error diag (k + 1) = Some D1 -> brow B = brow D1 /\ bcol B = brow D).
(** the lower half of [A] is made of the blocks [diag], and [sub] below them *)
Definition tri_half (diag sub : list rblk) (A : rmat) : Prop :=
  (forall k D i j, nth_error diag k = Some D -> (i < brow D)%nat -> (j <= i)%nat -> A (off diag k + i)%nat (off diag k + j)%nat = bm D i j) /\
  (forall k B i j, nth_error sub k = Some B -> (i < brow B)%nat -> (j < bcol B)%nat -> A (off diag (k + 1) + i)%nat (off diag k + j)%nat = bm B i j) /\
  (forall k k' D D' i j, nth_error diag k = Some D -> nth_error diag k' = Some D' -> (k' + 1 < k)%nat -> (i < brow D)%nat -> (j < brow D')%nat ->
     A (off diag k + i)%nat (off diag k' + j)%nat = 0).
(** sizes of the blocks of an arrow matrix: all side blocks touch the block [tip],
    the first one (pointing up) or the last one (pointing down) *)
Definition arrow_ok {S : ops} (up : bool) (diag side : list (blk S)) : Prop :=
  length diag = (length side + 1)%nat /\ Forall square diag /\
  (forall k B D T, nth_error side k = Some B -> nth_error diag (if up then k + 1 else k)%nat = Some D -> nth_error diag (if up then 0 else length side)%nat = Some T ->
     if up then brow B = brow D /\ bcol B = brow T else brow B = brow T /\ bcol B = brow D).
(** the lower half of [A] is the arrow: [side] in the first column of blocks (up) or the last row of blocks (down) *)
Definition arrow_half (up : bool) (diag side : list rblk) (A : rmat) : Prop :=
  (forall k D i j, nth_error diag k = Some D -> (i < brow D)%nat -> (j <= i)%nat -> A (off diag k + i)%nat (off diag k + j)%nat = bm D i j) /\
  (forall k B i j, nth_error side k = Some B -> (i < brow B)%nat -> (j < bcol B)%nat ->
     (if up then A (off diag (k + 1) + i)%nat j else A (off diag (length side) + i)%nat (off diag k + j)%nat) = bm B i j) /\
  (forall k k' D D' i j, nth_error diag k = Some D -> nth_error diag k' = Some D' -> (if up then (0 < k')%nat else (k < length side)%nat) -> (k' < k)%nat -> (i < brow D)%nat -> (j < brow D')%nat ->
     A (off diag k + i)%nat (off diag k' + j)%nat = 0).
Definition symmetric (n : nat) (A : rmat) : Prop := forall i j, (i < n)%nat -> (j < n)%nat -> A i j = A j i.
Definition lower_triangular (n : nat) (A : rmat) : Prop := forall i j, (i < j)%nat -> (j < n)%nat -> A i j = 0.
(** [P^T M P] moves the first [n0] rows and columns to the end *)
Definition perm (n n0 i : nat) : nat := if (i <? n - n0)%nat then (n0 + i)%nat else (i - (n - n0))%nat.

(** ** Positions *)
Lemma off_0 {S : ops} (ds : list (blk S)) : off ds 0 = 0%nat.
Proof. reflexivity. Qed.
Lemma off_S {T : ops} (D : blk T) ds k : off (D :: ds) (S k) = (brow D + off ds k)%nat.
Proof. reflexivity. Qed.
Lemma off_all {S : ops} (ds : list (blk S)) : off ds (length ds) = total ds.
Proof. unfold off. rewrite firstn_all. reflexivity. Qed.
Lemma total_app {S : ops} (l l' : list (blk S)) : total (l ++ l') = (total l + total l')%nat.
Proof. induction l as [|D l IH]; cbn [app total]; [reflexivity|]. lia. Qed.
Lemma off_app_l {S : ops} (l l' : list (blk S)) k : (k <= length l)%nat -> off (l ++ l') k = off l k.
Proof. intros H. unfold off. rewrite firstn_app. replace (k - length l)%nat with 0%nat by lia. cbn [firstn]. rewrite app_nil_r. reflexivity. Qed.
Lemma locate {T : ops} (ds : list (blk T)) : forall i, (i < total ds)%nat -> exists k D r, nth_error ds k = Some D /\ (r < brow D)%nat /\ i = (off ds k + r)%nat.
Proof.
  induction ds as [|D ds IH]; intros i Hi; cbn [total] in Hi; [lia|]. destruct (Nat.lt_ge_cases i (brow D)) as [H|H].
  - exists 0%nat, D, i. auto.
  - destruct (IH (i - brow D)%nat) as (k & E & r & H1 & H2 & H3); [lia|]. exists (S k), E, r. rewrite off_S. repeat split; auto. lia.
Qed.
Lemma nth_lt {X} (l : list X) k x : nth_error l k = Some x -> (k < length l)%nat.
Proof. intros H. apply nth_error_Some. congruence. Qed.

(** ** Tridiagonal *)
Lemma tri_ok_sizes {T : ops} (sub : list (blk T)) : forall D ds, tri_ok (D :: ds) sub <-> tri_sizes D ds sub.
Proof.
  induction sub as [|B sub IH]; intros D ds.
  - split.
    + intros (H1 & H2 & _). destruct ds; [|cbn in H1; lia]. split; [|exact I]. inversion H2; auto.
    + intros H. destruct ds; [|destruct H as [_ []]]. destruct H as [H1 H2]. split; [reflexivity|]. split; [repeat constructor; auto|]. intros [|k] B ? ? HB; discriminate.
  - split.
    + intros (H1 & H2 & H3). destruct ds as [|D1 ds]; [cbn in H1; lia|]. inversion H2 as [|? ? Ha Hb]; subst. split; [auto|].
      destruct (H3 0%nat B D D1 eq_refl eq_refl eq_refl). split; [auto|]. split; [auto|]. apply IH. split; [cbn in H1 |- *; lia|]. split; [auto|].
      intros k B' E E1. apply (H3 (S k)).
    + intros H. destruct ds as [|D1 ds]; [destruct H as [_ []]|]. destruct H as (H1 & H2 & H3 & H4). apply IH in H4. destruct H4 as (H4 & H5 & H6).
      split; [cbn in H4 |- *; lia|]. split; [constructor; auto|]. intros [|k] B' E E1 H7 H8 H9; cbn in H7, H8, H9; [injection H7 as <-; injection H8 as <-; injection H9 as <-; auto|].
      apply (H6 k); auto.
Qed.
Lemma tri_half_low sub : forall D ds A, tri_sizes D ds sub -> tri_half (D :: ds) sub A ->
  forall i j, (i < brow D + total ds)%nat -> (j <= i)%nat -> A i j = tri_low D ds sub i j.
Proof.
  induction sub as [|B sub IH]; intros D ds A Hs (H1 & H2 & H3) i j Hi Hj.
  - destruct ds; [|destruct Hs as [_ []]]. cbn [total tri_low] in *. apply (H1 0%nat D i j); auto. lia.
  - destruct ds as [|D1 ds]; [destruct Hs as [_ []]|]. destruct Hs as (Hs & HB1 & HB2 & Hs1). cbn [tri_low].
    destruct (Nat.lt_ge_cases i (brow D)) as [Hi1|Hi1].
    + rewrite blk2_00 by lia. apply (H1 0%nat D i j); auto.
    + replace i with (brow D + (i - brow D))%nat by lia. set (i' := (i - brow D)%nat) in *. cbn [total] in Hi. destruct (Nat.lt_ge_cases j (brow D)) as [Hj1|Hj1].
      * rewrite blk2_10 by auto. unfold pad_below. destruct (Nat.ltb_spec i' (brow B)) as [H|H].
        -- replace (brow D + i')%nat with (off (D :: D1 :: ds) (0 + 1) + i')%nat by (cbn; lia). apply (H2 0%nat B); auto. lia.
        -- destruct (locate (D1 :: ds) i') as (k & E & r & K1 & K2 & K3); [cbn; lia|]. destruct k as [|k].
           { cbn in K1, K3. injection K1 as <-. lia. }
           replace (brow D + i')%nat with (off (D :: D1 :: ds) (S (S k)) + r)%nat by (rewrite off_S; lia). apply (H3 (S (S k)) 0%nat E D r j); auto. lia.
      * replace j with (brow D + (j - brow D))%nat by lia. set (j' := (j - brow D)%nat) in *. rewrite blk2_11.
        rewrite <- (IH D1 ds (fun i j => A (brow D + i)%nat (brow D + j)%nat)); [reflexivity|auto| |lia|lia].
        split; [|split].
        -- intros k E a b Ha Hb Hc. rewrite !Nat.add_assoc. rewrite <- !off_S. apply (H1 (S k)); auto.
        -- intros k E a b Ha Hb Hc. rewrite !Nat.add_assoc. rewrite <- !off_S. apply (H2 (S k)); auto.
        -- intros k k' E E' a b Ha Hb Hc Hd He. rewrite !Nat.add_assoc. rewrite <- !off_S. apply (H3 (S k) (S k') E E'); auto. lia.
Qed.
Lemma tri_low_half sub : forall D ds, tri_sizes D ds sub -> tri_half (D :: ds) sub (tri_low D ds sub).
Proof.
  induction sub as [|B sub IH]; intros D ds Hs.
  - destruct ds; [|destruct Hs as [_ []]]. split; [|split].
    + intros [|k] E i j H; [injection H as <-; auto|destruct k; discriminate].
    + intros [|k] E i j H; discriminate.
    + intros [|k] [|k'] E E' i j H; try lia; intros H'; destruct k; discriminate.
  - destruct ds as [|D1 ds]; [destruct Hs as [_ []]|]. destruct Hs as (Hs & HB1 & HB2 & Hs1). destruct (IH D1 ds Hs1) as (H1 & H2 & H3). cbn [tri_low]. split; [|split].
    + intros [|k] E i j H Hi Hj; [injection H as <-; cbn [off firstn total Nat.add]; apply blk2_00; lia|]. cbn in H. rewrite off_S, <- !Nat.add_assoc, blk2_11. apply H1; auto.
    + intros [|k] E i j H Hi Hj.
      * injection H as <-. change (off (D :: D1 :: ds) (0 + 1)) with (brow D + 0)%nat. change (off (D :: D1 :: ds) 0) with 0%nat. rewrite Nat.add_0_r, Nat.add_0_l, blk2_10 by lia. unfold pad_below. rewrite (proj2 (Nat.ltb_lt _ _) Hi). reflexivity.
      * cbn in H. change (S k + 1)%nat with (S (k + 1)). rewrite !off_S, <- !Nat.add_assoc, blk2_11. apply H2; auto.
    + intros [|[|k]] [|k'] E E' i j H H' Hk Hi Hj; try lia.
      * cbn in H'. injection H' as <-. rewrite off_S, <- Nat.add_assoc. change (off (D :: D1 :: ds) 0) with 0%nat. rewrite Nat.add_0_l, blk2_10 by auto. unfold pad_below.
        rewrite (proj2 (Nat.ltb_ge _ _)); auto. rewrite off_S. lia.
      * rewrite (off_S D (D1 :: ds) (S k)), (off_S D (D1 :: ds) k'), <- !Nat.add_assoc, blk2_11. apply (H3 (S k) k' E E'); auto. lia.
Qed.

(** ** Arrow pointing down *)
Lemma arrow_ok_sizes {O : ops} (ds : list (blk O)) : forall bs Db, arrow_ok false (ds ++ [Db]) bs <-> arrow_sizes ds bs Db.
Proof.
  induction ds as [|D ds IH]; intros bs Db.
  - split.
    + intros (H1 & H2 & _). destruct bs; [|cbn in H1; lia]. inversion H2; auto.
    + destruct bs as [|B bs]; [|intros []]. intros H. split; [reflexivity|]. split; [repeat constructor; auto|]. intros [|k] B ? ? HB; discriminate.
  - split.
    + intros (H1 & H2 & H3). destruct bs as [|B bs]; [cbn in H1; rewrite app_length in H1; cbn in H1; lia|]. inversion H2 as [|? ? Ha Hb]; subst. split; [auto|].
      assert (Hl : length ds = length bs). { cbn in H1. rewrite app_length in H1. cbn in H1. lia. }
      assert (Hlast : nth_error (ds ++ [Db]) (length bs) = Some Db). { rewrite <- Hl, nth_error_app2, Nat.sub_diag by lia. reflexivity. }
      destruct (H3 0%nat B D Db eq_refl eq_refl Hlast). split; [auto|]. split; [auto|]. apply IH. split; [rewrite app_length; cbn; lia|]. split; [auto|].
      intros k B' E T K1 K2 K3. apply (H3 (S k)); auto.
    + destruct bs as [|B bs]; [intros []|]. intros (K1 & K2 & K3 & K4). apply IH in K4. destruct K4 as (H4 & H5 & H6).
      assert (Hl : length ds = length bs). { rewrite app_length in H4. cbn in H4. lia. }
      split; [cbn; rewrite app_length; cbn; lia|]. split; [constructor; auto|]. intros [|k] B' E T K5 K6 K7; cbn in K5, K6, K7.
      * injection K5 as <-. injection K6 as <-. rewrite <- Hl, nth_error_app2, Nat.sub_diag in K7 by lia. injection K7 as <-. auto.
      * apply (H6 k); auto.
Qed.
Lemma arrow_half_low ds : forall bs Db A, arrow_sizes ds bs Db -> arrow_half false (ds ++ [Db]) bs A ->
  forall i j, (i < total ds + brow Db)%nat -> (j <= i)%nat -> A i j = arrow_low ds bs Db i j.
Proof.
  induction ds as [|D ds IH]; intros bs Db A Hs (H1 & H2 & H3) i j Hi Hj.
  - destruct bs; [|destruct Hs]. cbn [total arrow_low] in *. apply (H1 0%nat Db i j); auto.
  - destruct bs as [|B bs]; [destruct Hs|]. destruct Hs as (Hs & HB1 & HB2 & Hs1). cbn [arrow_low].
    assert (Hl : length ds = length bs). { clear - Hs1. revert bs Hs1. induction ds as [|D ds IH]; intros [|B bs] H; cbn in H; try contradiction; auto. cbn. f_equal. apply IH. tauto. }
    destruct (Nat.lt_ge_cases i (brow D)) as [Hi1|Hi1].
    + rewrite blk2_00 by lia. apply (H1 0%nat D i j); auto.
    + replace i with (brow D + (i - brow D))%nat by lia. set (i' := (i - brow D)%nat) in *. cbn [total] in Hi. destruct (Nat.lt_ge_cases j (brow D)) as [Hj1|Hj1].
      * rewrite blk2_10 by auto. unfold pad_above. destruct (Nat.ltb_spec i' (total ds)) as [H|H].
        -- destruct (locate ds i' H) as (k & E & r & K1 & K2 & K3). pose proof (nth_lt _ _ _ K1) as Hk.
           replace (brow D + i')%nat with (off (D :: ds ++ [Db]) (S k) + r)%nat by (rewrite off_S, off_app_l; lia). apply (H3 (S k) 0%nat E D r j); auto; [|cbn; lia|lia].
           cbn. rewrite nth_error_app1; auto.
        -- replace (brow D + i')%nat with (off (D :: ds ++ [Db]) (length (B :: bs)) + (i' - total ds))%nat.
           ++ apply (H2 0%nat B); auto; lia.
           ++ cbn [length]. rewrite off_S, <- Hl, off_app_l, off_all by lia. lia.
      * replace j with (brow D + (j - brow D))%nat by lia. set (j' := (j - brow D)%nat) in *. rewrite blk2_11.
        rewrite <- (IH bs Db (fun i j => A (brow D + i)%nat (brow D + j)%nat)); [reflexivity|auto| |lia|lia]. cbn [app] in *.
        split; [|split].
        -- intros k E a b Ha Hb Hc. rewrite !Nat.add_assoc. rewrite <- !off_S. apply (H1 (S k)); auto.
        -- intros k E a b Ha Hb Hc. rewrite !Nat.add_assoc. rewrite <- !off_S. apply (H2 (S k)); auto.
        -- intros k k' E E' a b Ha Hb Hc Hd He Hf. rewrite !Nat.add_assoc. rewrite <- !off_S. apply (H3 (S k) (S k') E E'); auto; cbn; lia.
Qed.
Lemma arrow_low_half ds : forall bs Db, arrow_sizes ds bs Db -> arrow_half false (ds ++ [Db]) bs (arrow_low ds bs Db).
Proof.
  induction ds as [|D ds IH]; intros bs Db Hs.
  - destruct bs; [|destruct Hs]. split; [|split].
    + intros [|k] E i j H; [injection H as <-; auto|destruct k; discriminate].
    + intros [|k] E i j H; discriminate.
    + intros k k' E E' i j H H' Hk. cbn in Hk. lia.
  - destruct bs as [|B bs]; [destruct Hs|]. destruct Hs as (Hs & HB1 & HB2 & Hs1). destruct (IH bs Db Hs1) as (H1 & H2 & H3). cbn [arrow_low].
    assert (Hl : length ds = length bs). { clear - Hs1. revert bs Hs1. induction ds as [|D ds IH]; intros [|B bs] H; cbn in H; try contradiction; auto. cbn. f_equal. apply IH. tauto. }
    cbn [app]. split; [|split].
    + intros [|k] E i j H Hi Hj; [injection H as <-; cbn [off firstn total Nat.add]; apply blk2_00; lia|]. cbn in H. rewrite off_S, <- !Nat.add_assoc, blk2_11. apply H1; auto.
    + intros [|k] E i j H Hi Hj.
      * injection H as <-. cbn [length]. rewrite off_S, <- Nat.add_assoc. change (off (D :: ds ++ [Db]) 0) with 0%nat. rewrite Nat.add_0_l, blk2_10 by lia.
        unfold pad_above. rewrite <- Hl, off_app_l, off_all by lia. rewrite (proj2 (Nat.ltb_ge _ _)) by lia. f_equal. lia.
      * cbn in H. cbn [length]. rewrite !off_S, <- !Nat.add_assoc, blk2_11. apply H2; auto.
    + intros [|k] [|k'] E E' i j H H' Hk1 Hk Hi Hj; try lia; cbn [length] in Hk1.
      * cbn in H'. injection H' as <-. rewrite off_S, <- Nat.add_assoc. change (off (D :: ds ++ [Db]) 0) with 0%nat. rewrite Nat.add_0_l, blk2_10 by auto. unfold pad_above.
        cbn in H. rewrite nth_error_app1 in H by lia. rewrite off_app_l by lia. rewrite (proj2 (Nat.ltb_lt _ _)); auto.
        assert (Hx : forall l k, nth_error l k = Some E -> (off l k + brow E <= total l)%nat).
        { clear. induction l as [|D l IH]; intros [|k] H; try discriminate; cbn in H; [injection H as ->; cbn; lia|]. rewrite off_S. cbn [total]. specialize (IH _ H). lia. }
        specialize (Hx _ _ H). lia.
      * rewrite !off_S, <- !Nat.add_assoc, blk2_11. apply (H3 k k' E E'); auto; lia.
Qed.

(** ** Arrow pointing up: the permuted matrix is an arrow pointing down *)
Lemma total_rot {T : ops} (D : blk T) ds : total (ds ++ [D]) = total (D :: ds).
Proof. rewrite total_app. cbn [total]. lia. Qed.
Lemma arrow_ok_up {O : ops} (D : blk O) ds ss : arrow_ok true (D :: ds) ss <-> arrow_sizes ds (map (get_B true) ss) D.
Proof.
  rewrite <- arrow_ok_sizes. unfold arrow_ok. rewrite map_length, app_length. cbn [length]. split.
  - intros (H1 & H2 & H3). split; [lia|]. inversion H2 as [|? ? Ha Hb]; subst. split; [apply Forall_app; auto|].
    intros k B E T K1 K2 K3. rewrite nth_error_map in K1. destruct (nth_error ss k) as [X|] eqn:EX; [|discriminate]. injection K1 as <-. pose proof (nth_lt _ _ _ EX) as Hk.
    rewrite nth_error_app1 in K2 by lia. rewrite nth_error_app2 in K3 by lia. replace (length ss - length ds)%nat with 0%nat in K3 by lia. injection K3 as <-.
    destruct (H3 k X E D EX) as [H4 H5]; auto. rewrite Nat.add_1_r. exact K2.
  - intros (H1 & H2 & H3). split; [lia|]. apply Forall_app in H2. destruct H2 as [H2 H4]. split; [constructor; auto; inversion H4; auto|].
    intros k X E T K1 K2 K3. injection K3 as <-. rewrite Nat.add_1_r in K2. cbn in K2. pose proof (nth_lt _ _ _ K1) as Hk.
    destruct (H3 k (get_B true X) E D) as [H5 H6]; auto.
    + rewrite nth_error_map, K1. reflexivity.
    + rewrite nth_error_app1 by lia. auto.
    + rewrite nth_error_app2 by lia. replace (length ss - length ds)%nat with 0%nat by lia. reflexivity.
Qed.
Lemma perm_lt n n0 i : (n0 <= n)%nat -> (i < n)%nat -> (perm n n0 i < n)%nat.
Proof. intros H Hi. unfold perm. destruct (Nat.ltb_spec i (n - n0)); lia. Qed.
Lemma arrow_half_up D ds ss A : arrow_sizes ds (map (get_B true) ss) D -> arrow_half true (D :: ds) ss A -> symmetric (total (D :: ds)) A ->
  arrow_half false (ds ++ [D]) (map (get_B true) ss) (fun i j => A (perm (total (D :: ds)) (brow D) i) (perm (total (D :: ds)) (brow D) j)).
Proof.
  intros Hs (H1 & H2 & H3) Hsym. set (n := total (D :: ds)) in *. assert (Hn : n = (brow D + total ds)%nat) by reflexivity.
  assert (Hl : length ds = length ss). { clear - Hs. revert ss Hs. induction ds as [|E ds IH]; intros [|B bs] H; cbn in H; try contradiction; auto. cbn. f_equal. apply IH. tauto. }
  assert (Hx : forall E k, nth_error ds k = Some E -> (off ds k + brow E <= total ds)%nat).
  { clear. intros E. induction ds as [|D' l IH]; intros [|k] H; try discriminate; cbn in H; [injection H as ->; cbn; lia|]. rewrite off_S. cbn [total]. specialize (IH _ H). lia. }
  assert (Hp : forall k E i, nth_error ds k = Some E -> (i < brow E)%nat -> perm n (brow D) (off ds k + i)%nat = (off (D :: ds) (S k) + i)%nat).
  { intros k E i HE Hi. specialize (Hx _ _ HE). unfold perm. rewrite (proj2 (Nat.ltb_lt _ _)) by lia. rewrite off_S. lia. }
  assert (Hq : forall i, perm n (brow D) (total ds + i)%nat = i). { intros i. unfold perm. rewrite (proj2 (Nat.ltb_ge _ _)) by lia. lia. }
  assert (Hcase : forall k E, nth_error (ds ++ [D]) k = Some E -> (k < length ds)%nat /\ nth_error ds k = Some E \/ k = length ds /\ E = D).
  { intros k E H. destruct (Nat.lt_ge_cases k (length ds)) as [Hk|Hk]; [rewrite nth_error_app1 in H by auto; auto|]. rewrite nth_error_app2 in H by auto.
    destruct (k - length ds)%nat as [|m] eqn:Ek; [injection H as <-; right; split; auto; lia|destruct m; discriminate]. }
  split; [|split].
  - intros k E i j H Hi Hj. destruct (Hcase k E H) as [[Hk HE]|[-> ->]].
    + rewrite off_app_l by lia. rewrite !(Hp k E) by (auto; lia). apply (H1 (S k)); auto.
    + rewrite off_app_l, off_all, !Hq by lia. apply (H1 0%nat D i j); auto.
  - intros k B i j H Hi Hj. rewrite nth_error_map in H. destruct (nth_error ss k) as [X|] eqn:EX; [|discriminate]. injection H as <-. pose proof (nth_lt _ _ _ EX) as Hk.
    cbn [get_B tblk brow bcol bm] in *. rewrite map_length, <- Hl, !off_app_l, off_all, Hq by lia.
    destruct (nth_error ds k) as [E|] eqn:HE; [|apply nth_error_None in HE; lia].
    assert (HX : brow X = brow E).
    { apply arrow_ok_up in Hs. destruct Hs as (_ & _ & Hs). destruct (Hs k X E D EX); auto. rewrite Nat.add_1_r. exact HE. }
    assert (HX2 : bcol X = brow D).
    { apply arrow_ok_up in Hs. destruct Hs as (_ & _ & Hs). destruct (Hs k X E D EX); auto. rewrite Nat.add_1_r. exact HE. }
    rewrite (Hp k E) by (auto; lia). specialize (Hx _ _ HE). rewrite Hsym by (rewrite ?off_S; lia). replace (S k) with (k + 1)%nat by lia. apply (H2 k X); auto.
  - intros k k' E E' i j HE HE' Hk1 Hk Hi Hj. rewrite map_length, <- Hl in Hk1. rewrite !off_app_l by lia.
    destruct (Hcase _ _ HE) as [[_ HEk]|[-> _]]; [|lia]. destruct (Hcase _ _ HE') as [[_ HEk']|[-> _]]; [|lia].
    rewrite (Hp k E), (Hp k' E') by auto. apply (H3 (S k) (S k') E E'); auto; lia.
Qed.

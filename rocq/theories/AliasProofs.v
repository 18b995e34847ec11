(** C51: whose matrices a call of BlockGISolver::solve reads and writes.  Any arithmetic (in particular doubles).

    A StructuredG holds references to the user's blocks; addresses stand for the user's matrices ([BlockAlias.v]).
    [holds h l ds]: the matrices at addresses [l] contain the blocks [ds];
    [sees h g G]: the StructuredG [g], read now, is the Hessian [G]. *)
From Coq Require Import List Arith ZArith Lia Bool Floats.
From Verif Require Import Base ActiveSet Num Solver Warm Block Ortho StructC StructG BlockGI BlockAlias.
Import ListNotations.

Section Alias.
Variable S : ops.
Notation blk := (blk S).
Notation heap := (heap S).
Definition holds (h : heap) (l : list nat) (ds : list blk) : Prop := Forall2 (fun a D => h a = Some D) l ds.
Definition diag_at (g : gref) : list nat := v_refs (gr_diag g).
Definition off_at (g : gref) : list nat := v_refs (gr_off g).
Definition matrices (g : gref) : list nat := diag_at g ++ off_at g.
Definition sees (h : heap) (g : gref) (G : structG S) : Prop :=
  holds h (diag_at g) (g_diag G) /\ holds h (off_at g) (g_off G) /\ gr_type g = g_type G /\ gr_n g = g_n G /\ gr_dec g = g_dec G.
Definition same_size (D E : blk) : Prop := brow D = brow E /\ bcol D = bcol E.
Definition same_counts (g g' : gref) : Prop := length (diag_at g) = length (diag_at g') /\ length (off_at g) = length (off_at g').
(** the blocks [L] a call that returns [st] leaves behind when its Hessian was [G]: the result of the factorisation in
    place, unless the call stopped before *)
Definition left_by (st : term_status) (G L : structG S) : Prop :=
  match st with
  | OVERCONSTRAINED_PROBLEM => L = G
  | NON_POS_HESSIAN => stg_llt G = Ok (false, L)
  | _ => stg_llt G = Ok (true, L)
  end.

(** *** the factorisation keeps the number of blocks *)
Lemma tri_len ss : forall (D : blk) ds r, tri_llt_loop D ds ss = Ok r -> length (snd (fst r)) = Datatypes.S (length ds) /\ length (snd r) = length ss.
Proof.
  induction ss as [|B ss IH]; intros D ds r E; destruct ds as [|D1 ds]; cbn [tri_llt_loop] in E; try discriminate.
  - apply bind_ok in E as (r0 & _ & E). injection E as <-. auto.
  - apply bind_ok in E as (r0 & _ & E). destruct (0 <? fst r0)%Z; [injection E as <-; cbn; auto|].
    apply bind_ok in E as (B' & _ & E). apply bind_ok in E as (D1' & _ & E). apply bind_ok in E as ([[ok dl] bl] & E1 & E). injection E as <-.
    apply IH in E1 as [H1 H2]. cbn in *. auto.
Qed.
Lemma arrow_len up ss : forall (ds : list blk) Db r, arrow_llt_loop up ds ss Db = Ok r -> length (snd (fst (fst r))) = length ds /\ length (snd (fst r)) = length ss.
Proof.
  induction ss as [|B ss IH]; intros ds Db r E; destruct ds as [|D1 ds]; cbn [arrow_llt_loop] in E; try discriminate.
  - apply bind_ok in E as (r0 & _ & E). injection E as <-. auto.
  - apply bind_ok in E as (r0 & _ & E). destruct (0 <? fst r0)%Z; [injection E as <-; cbn; auto|].
    apply bind_ok in E as (B' & _ & E). apply bind_ok in E as (D1' & _ & E). apply bind_ok in E as ([[[ok dl] bl] db] & E1 & E). injection E as <-.
    apply IH in E1 as [H1 H2]. cbn in *. auto.
Qed.
Lemma arrow_llt_len up (dg sd : list blk) ok dl sl : blockArrowLLT dg sd up = Ok (ok, dl, sl) -> length dl = length dg /\ length sl = length sd.
Proof.
  unfold blockArrowLLT. intros E. apply guard_ok in E as [Hl E]. destruct (arrow_split up dg) as [[ds Db]|] eqn:Es; [|discriminate].
  apply bind_ok in E as ([[[ok' dl'] sl'] db] & E1 & E). injection E as _ <- <-. apply arrow_len in E1 as [H1 H2]. cbn in H1, H2. split; [|exact H2].
  unfold arrow_split in Es. destruct dg as [|D0 dg]; [discriminate|]. injection Es as Es. destruct up.
  - injection Es as -> ->. cbn. congruence.
  - injection Es as E3 E4. unfold arrow_join. rewrite app_length, H1, <- E3. cbn [length].
    assert (H : forall (x : blk) l, length (removelast (x :: l)) = length l). { clear. intros x l. revert x. induction l as [|y l IH]; intros x; [reflexivity|]. change (removelast (x :: y :: l)) with (x :: removelast (y :: l)). cbn [length]. rewrite IH. reflexivity. }
    change (length (removelast (D0 :: dg)) + 1 = Datatypes.S (length dg)). rewrite H. lia.
Qed.
Lemma llt_len (G : structG S) ok L : stg_llt G = Ok (ok, L) -> length (g_diag L) = length (g_diag G) /\ length (g_off L) = length (g_off G).
Proof.
  unfold stg_llt. intros E. apply bind_ok in E as ([[dn dl] ol] & E1 & E). injection E as _ <-. cbn.
  destruct (g_type G); [|apply (arrow_llt_len _ _ _ _ _ _ E1)|apply (arrow_llt_len _ _ _ _ _ _ E1)].
  unfold triBlockDiagLLT in E1. apply guard_ok in E1 as [_ E1]. destruct (g_diag G) as [|D ds]; [discriminate|]. apply tri_len in E1. exact E1.
Qed.
Lemma left_len st G L : left_by st G L -> length (g_diag L) = length (g_diag G) /\ length (g_off L) = length (g_off G).
Proof. destruct st; cbn; try apply llt_len. intros ->. auto. Qed.

(** *** the rest of the call does not touch the Hessian *)
Lemma bfix_select (bp : bproblem S) b r : bselect bp b = Ok r -> b_G (snd r) = b_G b.
Proof.
  unfold bselect. intros E. repeat match type of E with
  | bind _ _ = Ok _ => apply bind_ok in E as (? & _ & E)
  | guard _ _ = Ok _ => apply guard_ok in E as [_ E]
  | (let '(_, _) := ?p in _) = Ok _ => destruct p
  end. all: try (injection E as <-; reflexivity). 
Qed.
Lemma bloop_G isz tiny junk (bp : bproblem S) o fuel : forall l r, bloop isz tiny junk bp o fuel l = Ok r -> b_G (snd r) = b_G (bl_s l).
Proof.
  induction fuel as [|f IH]; intros l r E; cbn [bloop] in E; [injection E as <-; reflexivity|].
  apply bind_ok in E as (out & Eo & E).
  assert (HI : match out with BContinue l' => b_G (bl_s l') = b_G (bl_s l) | BStop _ b => b_G b = b_G (bl_s l) end).
  { unfold biter in Eo. apply bind_ok in Eo as ((m0 & b0) & E1 & Eo). cbn [fst snd] in Eo.
    assert (H1 : b_G b0 = b_G (bl_s l) /\ match m0 with Some l1 => b_G (bl_s l1) = b_G (bl_s l) | None => True end).
    { unfold bstep1 in E1. destruct (bl_skip l); [injection E1 as <- <-; auto|]. apply bind_ok in E1 as ((sc & b1) & E2 & E1). apply bfix_select in E2. cbn [snd] in E2.
      destruct (sc_st sc); try (apply bind_ok in E1 as (? & _ & E1); apply bind_ok in E1 as (? & _ & E1)); injection E1 as <- <-; cbn; auto. }
    destruct H1 as [H1 H2]. destruct m0 as [l1|]; [|injection Eo as <-; exact H1]. clear E1. rewrite <- H2. clear H1 H2.
    unfold bstep2 in Eo. apply bind_ok in Eo as (b & Eb & Eo). 
    assert (K : b_G b = b_G (bl_s l1)).
    { unfold bcomputeStep in Eb. repeat match type of Eb with bind _ _ = Ok _ => apply bind_ok in Eb as (? & _ & Eb) | guard _ _ = Ok _ => apply guard_ok in Eb as [_ Eb] end. injection Eb as <-. reflexivity. }
    rewrite <- K. clear Eb K. apply bind_ok in Eo as ([[t1 t2] li] & _ & Eo). cbv zeta in Eo.
    assert (HR : forall b1 b2 l2, bremoveConstraint junk b1 l2 = Ok b2 -> b_G b2 = b_G b1).
    { intros b1 b2 l2 E2. unfold bremoveConstraint in E2. apply guard_ok in E2 as [_ E2]. apply bind_ok in E2 as (? & _ & E2). apply bind_ok in E2 as (? & _ & E2). injection E2 as <-. reflexivity. }
    assert (HA : forall b1 b2 sc2, baddConstraint tiny junk b1 sc2 = Ok b2 -> b_G b2 = b_G b1).
    { intros b1 b2 l2 E2. unfold baddConstraint in E2. apply bind_ok in E2 as (? & _ & E2). apply bind_ok in E2 as (? & _ & E2). apply bind_ok in E2 as (? & _ & E2). injection E2 as <-. reflexivity. }
    destruct (leb S (o_bigBnd o) _); [injection Eo as <-; reflexivity|].
    destruct (leb S (o_bigBnd o) t2); [|apply bind_ok in Eo as (nz & _ & Eo); destruct (eqb S _ t2)].
    - apply bind_ok in Eo as (b2 & E2 & Eo). apply bind_ok in Eo as (? & _ & Eo). apply bind_ok in Eo as (? & _ & Eo). injection Eo as <-. apply HR in E2. exact E2.
    - apply bind_ok in Eo as (b2 & E2 & Eo). injection Eo as <-. apply HA in E2. exact E2.
    - apply bind_ok in Eo as (b2 & E2 & Eo). apply bind_ok in Eo as (? & _ & Eo). apply bind_ok in Eo as (? & _ & Eo). injection Eo as <-. apply HR in E2. exact E2. }
  destruct out as [l'|st b]; [|injection E as <-; exact HI]. apply IH in E. rewrite E. exact HI.
Qed.
Lemma bloop_status isz tiny junk (bp : bproblem S) o fuel : forall l r, bloop isz tiny junk bp o fuel l = Ok r -> fst r = SUCCESS \/ fst r = INFEASIBLE \/ fst r = MAX_ITER_REACHED.
Proof.
  induction fuel as [|f IH]; intros l r E; cbn [bloop] in E; [injection E as <-; auto|].
  apply bind_ok in E as (out & Eo & E). destruct out as [l'|st b]; [exact (IH _ _ E)|]. injection E as <-. cbn [fst].
  unfold biter in Eo. apply bind_ok in Eo as ((m0 & b0) & E1 & Eo). cbn [fst snd] in Eo. destruct m0 as [l1|]; [|injection Eo as <- _; auto].
  unfold bstep2 in Eo. apply bind_ok in Eo as (b' & Eb & Eo). apply bind_ok in Eo as ([[t1 t2] li] & _ & Eo). cbv zeta in Eo.
  destruct (leb S (o_bigBnd o) _); [injection Eo as <- _; auto|].
  destruct (leb S (o_bigBnd o) t2); [|apply bind_ok in Eo as (nz & _ & Eo); destruct (eqb S _ t2)]; repeat (apply bind_ok in Eo as (? & _ & Eo)); discriminate.
Qed.
Lemma pia_status (pb : problem S) o ws n A st A' : processInitialActiveSet pb o ws n A = Ok (st, A') -> st = SUCCESS \/ st = OVERCONSTRAINED_PROBLEM.
Proof.
  intros EP. unfold processInitialActiveSet in EP. apply bind_ok in EP as (A1 & _ & EP). apply bind_ok in EP as (A2 & _ & EP). destruct (_ <? _)%nat; [|injection EP as <- _; auto].
  destruct (_ <? _)%Z; [injection EP as <- _; auto|]. apply bind_ok in EP as (A3 & _ & EP). injection EP as <- _. auto.
Qed.
Lemma bsolve_left isz tiny junk (bp : bproblem S) o ws b st b' : bgi_solve isz tiny junk bp o ws b = Ok (st, b') -> left_by st (bp_G bp) (b_G b').
Proof.
  intros E. unfold bgi_solve in E. apply guard_ok in E as [_ E]. apply guard_ok in E as [_ E]. apply guard_ok in E as [_ E]. cbv zeta in E. apply bind_ok in E as ((st1 & b2) & E1 & E).
  assert (HI : left_by st1 (bp_G bp) (b_G b2) /\ (st1 = SUCCESS \/ st1 = OVERCONSTRAINED_PROBLEM \/ st1 = NON_POS_HESSIAN)).
  { match type of E1 with binit _ _ _ _ ?x = _ => set (b1 := x) in *; assert (EG : b_G b1 = bp_G bp) end.
    { unfold b1, bresize. destruct (_ =? s_n _); destruct (_ =? a_nc _); reflexivity. }
    clearbody b1. unfold binit in E1. apply bind_ok in E1 as ((s0 & A) & EP & E1). cbn [fst snd] in E1.
    apply pia_status in EP as [-> | ->]; [|injection E1 as <- <-; split; [exact EG|auto]]. apply bind_ok in E1 as ((ok & L0) & EL & E1). cbn [fst snd] in E1. rewrite EG in EL.
    destruct ok; cbn [negb] in E1; [|injection E1 as <- <-; split; [exact EL|auto]].
    repeat match type of E1 with bind _ _ = Ok _ => apply bind_ok in E1 as (? & _ & E1) | guard _ _ = Ok _ => apply guard_ok in E1 as [_ E1] end. injection E1 as <- <-. split; [exact EL|auto]. }
  assert (HT : forall st b r, bterminate (S:=S) o st b = Ok r -> r = (st, b)). { intros s0 b0 r Er. unfold bterminate in Er. destruct s0; try (injection Er as <-; reflexivity); destruct (o_debug o); try discriminate; injection Er as <-; reflexivity. }
  destruct HI as [HI [-> | [-> | ->]]]; try (apply HT in E; injection E as -> ->; exact HI).
  apply bind_ok in E as (? & _ & E). apply bind_ok in E as (? & _ & E). apply bind_ok in E as (? & _ & E). apply bind_ok in E as (rs & El & E). apply HT in E. destruct rs as [st2 b3]. cbn [fst snd] in E. injection E as -> ->.
  pose proof (bloop_status _ _ _ _ _ _ _ _ El) as Hs. apply bloop_G in El. cbn [bl_s fst snd] in El, Hs. rewrite El. destruct Hs as [-> | [-> | ->]]; exact HI.
Qed.

(** *** heaps *)
Lemma deref_holds h l ds : deref h l = Ok ds <-> holds h l ds.
Proof.
  revert ds. induction l as [|a l IH]; intros ds; cbn [deref].
  - split; [intros E; injection E as <-; constructor|intros H; inversion H; reflexivity].
  - split.
    + destruct (h a) as [D|] eqn:Ea; [|discriminate]. intros E. apply bind_ok in E as (ds' & E1 & E). injection E as <-. constructor; [exact Ea|]. apply IH. exact E1.
    + intros H. inversion H as [|? D ? ds' Ha Hl]; subst. rewrite Ha. rewrite (proj2 (IH ds') Hl). reflexivity.
Qed.
Lemma value_sees h g G : g_value h g = Ok G <-> sees h g G.
Proof.
  unfold g_value, sees. split.
  - intros E. apply bind_ok in E as (ds & E1 & E). apply bind_ok in E as (os & E2 & E). injection E as <-. cbn. apply deref_holds in E1, E2. auto.
  - intros (H1 & H2 & H3 & H4 & H5). apply deref_holds in H1, H2. unfold diag_at, off_at in *. rewrite H1, H2. cbn [bind]. rewrite H3, H4, H5. destruct G; reflexivity.
Qed.
Lemma put_other l : forall ds h a, ~ In a l -> put (S:=S) h l ds a = h a.
Proof.
  induction l as [|b l IH]; intros ds h a Ha; [reflexivity|]. destruct ds as [|D ds]; [reflexivity|]. cbn [put]. rewrite IH by (intros X; apply Ha; right; exact X).
  unfold hset. destruct (Nat.eqb_spec a b); [subst; exfalso; apply Ha; left; reflexivity|reflexivity].
Qed.
Lemma put_holds l : forall ds h, NoDup l -> length l = length ds -> holds (put h l ds) l ds.
Proof.
  induction l as [|b l IH]; intros ds h HN Hl; destruct ds as [|D ds]; try discriminate; [constructor|]. inversion HN; subst. cbn [put]. constructor; [|apply IH; auto].
  rewrite put_other by auto. unfold hset. rewrite Nat.eqb_refl. reflexivity.
Qed.
Lemma holds_agree h h' l ds : (forall a, In a l -> h' a = h a) -> holds h l ds -> holds h' l ds.
Proof. intros Hag H. induction H as [|a D l ds Ha _ IH]; [constructor|]. constructor; [rewrite Hag by (left; reflexivity); exact Ha|]. apply IH. intros x Hx. apply Hag. right. exact Hx. Qed.
Lemma holds_len h l ds : holds h l ds -> length l = length ds.
Proof. intros H. induction H; cbn; congruence. Qed.
Lemma NoDup_app_inv (l1 l2 : list nat) : NoDup (l1 ++ l2) -> NoDup l1 /\ NoDup l2 /\ forall a, In a l1 -> ~ In a l2.
Proof.
  induction l1 as [|x l1 IH]; cbn; intros H; [split; [constructor|]; split; [exact H|]; intros a []|].
  inversion H as [|? ? Hx Hr]; subst. apply IH in Hr as (H1 & H2 & H3). split; [constructor; [intros X; apply Hx; apply in_or_app; auto|exact H1]|]. split; [exact H2|].
  intros a [->|Ha]; [intros X; apply Hx; apply in_or_app; auto|auto].
Qed.
Lemma gput_spec h p (L0 : structG S) : NoDup (matrices p) -> length (diag_at p) = length (g_diag L0) -> length (off_at p) = length (g_off L0) ->
  holds (g_put h p L0) (diag_at p) (g_diag L0) /\ holds (g_put h p L0) (off_at p) (g_off L0) /\ forall a, ~ In a (matrices p) -> g_put h p L0 a = h a.
Proof.
  intros HN H1 H2. apply NoDup_app_inv in HN as (N1 & N2 & N3). unfold g_put. fold (diag_at p). fold (off_at p). split; [|split].
  - apply (holds_agree (put h (diag_at p) (g_diag L0))); [|apply put_holds; auto]. intros a Ha. apply put_other. auto.
  - apply put_holds; auto.
  - intros a Ha. unfold matrices in Ha. rewrite !put_other; auto; intros X; apply Ha; apply in_or_app; auto.
Qed.
(** an element-wise assignment keeps all sizes, and needs all pairs to agree *)
Definition dims (h : heap) (a : nat) : option (nat * nat) := match h a with Some D => Some (brow D, bcol D) | None => None end.
Lemma assign_one h d s h' : ref_assign h d s = Ok h' -> (exists D E, h d = Some D /\ h s = Some E /\ same_size D E) /\ (forall a, dims h' a = dims h a) /\ forall a, a <> d -> h' a = h a.
Proof.
  unfold ref_assign. destruct (h d) as [D|] eqn:Ed; [|discriminate]. destruct (h s) as [E0|] eqn:Es; [|discriminate]. intros E. apply guard_ok in E as [Hg E]. injection E as <-.
  apply andb_true_iff in Hg as [G1 G2]. apply Nat.eqb_eq in G1, G2. split; [exists D, E0; repeat split; auto|]. split.
  - intros a. unfold dims, hset. destruct (Nat.eqb_spec a d); [subst; rewrite Ed; congruence|reflexivity].
  - intros a Ha. unfold hset. apply Nat.eqb_neq in Ha. rewrite Ha. reflexivity.
Qed.
Lemma assign_needs dst : forall src h h', assign_all h dst src = Ok h' ->
  (forall k d s, nth_error dst k = Some d -> nth_error src k = Some s -> exists x, dims h d = Some x /\ dims h s = Some x) /\ (forall a, dims h' a = dims h a) /\ forall a, ~ In a dst -> h' a = h a.
Proof.
  induction dst as [|d0 dst IH]; intros src h h' E; destruct src as [|s0 src]; cbn [assign_all] in E; try (injection E as <-; split; [intros [|k] d s; cbn; intros; congruence|auto]).
  apply bind_ok in E as (h1 & E1 & E). apply assign_one in E1 as ((D & E0 & K1 & K2 & K3 & K4) & K5 & K6). apply IH in E as (H1 & H2 & H3). split; [|split].
  - intros [|k] d s Hd Hs; cbn in Hd, Hs.
    + injection Hd as <-. injection Hs as <-. exists (brow D, bcol D). unfold dims. rewrite K1, K2. split; [reflexivity|congruence].
    + rewrite <- !K5. apply (H1 k); auto.
  - intros a. rewrite H2. apply K5.
  - intros a Ha. rewrite H3 by (intros X; apply Ha; right; exact X). apply K6. intros ->. apply Ha. left. reflexivity.
Qed.
Lemma assign_copies dst : forall src h ds es, NoDup dst -> (forall a, In a dst -> ~ In a src) -> holds h src ds -> holds h dst es -> Forall2 same_size es ds ->
  assign_all h dst src = Ok (put h dst ds).
Proof.
  induction dst as [|d dst IH]; intros src h ds es HN Hd Hs He HF.
  - inversion He; subst. inversion HF; subst. inversion Hs; subst. reflexivity.
  - inversion He as [|? E0 ? es' Hd0 He']; subst. inversion HF as [|? D0 ? ds' Hsz HF']; subst. inversion Hs as [|s ? src' ? Hs0 Hs']; subst. inversion HN; subst.
    cbn [assign_all put]. unfold ref_assign. rewrite Hd0, Hs0. destruct Hsz as [Z1 Z2]. rewrite (proj2 (Nat.eqb_eq _ _) Z1), (proj2 (Nat.eqb_eq _ _) Z2). cbn [andb guard bind].
    assert (K : forall a, In a src' \/ In a dst -> hset h d D0 a = h a).
    { intros a Ha. unfold hset. destruct (Nat.eqb_spec a d); [subst|reflexivity]. destruct Ha as [Ha|Ha]; [exfalso; apply (Hd d (or_introl eq_refl)); right; exact Ha|contradiction]. }
    apply (IH src' _ ds' es'); auto.
    + intros a Ha X. apply (Hd a (or_intror Ha)). right. exact X.
    + apply (holds_agree h); auto.
    + apply (holds_agree h); auto.
Qed.
Lemma assign_same l : forall h ds, holds h l ds -> exists h', assign_all h l l = Ok h' /\ forall a, h' a = h a.
Proof.
  induction l as [|d l IH]; intros h ds H; [exists h; split; reflexivity|]. inversion H as [|? D ? ds' Hd Hl]; subst. cbn [assign_all]. unfold ref_assign. rewrite Hd, !Nat.eqb_refl. cbn [andb guard bind].
  assert (K : forall a, hset h d D a = h a). { intros a. unfold hset. destruct (Nat.eqb_spec a d); [subst; auto|reflexivity]. }
  destruct (IH (hset h d D) ds') as (h' & E & Hh); [apply (holds_agree h); auto|]. exists h'. split; [exact E|]. intros a. rewrite Hh. apply K.
Qed.
End Alias.

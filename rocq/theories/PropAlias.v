(** C51: whose matrices a call of BlockGISolver::solve reads and writes.  Any arithmetic (in particular doubles).

    A StructuredG holds references to the user's blocks; addresses stand for the user's matrices ([BlockAlias.v]).
    From AliasProofs.v:
    [holds h l ds]: the matrices at addresses [l] contain the blocks [ds];
    [matrices g]: the matrices [g] refers to, [diag_at g] followed by [off_at g];
    [sees h g G]: the StructuredG [g], read now, is the Hessian [G];
    [left_by st G L]: [L] is what a call on Hessian [G] with status [st] leaves (the factor, in general). *)
From Coq Require Import List Arith ZArith Lia Bool Floats.
From Verif Require Import Base ActiveSet Num Solver RunFloat Warm Block Ortho StructC StructG BlockGI BlockAlias AliasProofs.
Import ListNotations.

Section Alias.
Variable S : ops.
Variable isz : carrier S -> bool.
Variable tiny : carrier S.
Notation holds := (holds S). Notation sees := (sees S). Notation left_by := (left_by S). Notation heap := (heap S).
(** the blocks of [L] are in the matrices of [g], and every other matrix is as in [h] *)
Definition only_written (h h' : heap) (g : gref) (L : structG S) : Prop :=
  holds h' (diag_at g) (g_diag L) /\ holds h' (off_at g) (g_off L) /\ forall a, ~ In a (matrices g) -> h' a = h a.
(** objects that were first given the Hessian [g1] and then Hessians with as many blocks; between calls the user may do
    anything with his matrices *)
Inductive calls (g1 : gref) : asol S -> Prop :=
| cl_first junk bp o ws h st x h' : asolve isz tiny junk bp o ws h g1 asol_new = Ok (st, x, h') -> calls g1 x
| cl_next junk bp o ws h g x st x' h' : calls g1 x -> same_counts g1 g -> asolve isz tiny junk bp o ws h g x = Ok (st, x', h') -> calls g1 x'.

Lemma vec_new h src : exists c, vec_assign (S:=S) h (VR [] 0) src = Ok (h, VR src c) /\ c = length src.
Proof. unfold vec_assign. cbn [v_cap v_refs]. destruct src as [|a l]; [exists 0; auto|]. exists (length (a :: l)). auto. Qed.
Lemma vec_keep h l src : length src = length l -> vec_assign (S:=S) h (VR l (length l)) src = do h' <- assign_all h l src; Ok (h', VR l (length l)).
Proof.
  intros Hl. unfold vec_assign. cbn [v_cap v_refs]. rewrite (proj2 (Nat.ltb_ge _ _)) by lia. rewrite Hl, firstn_all. rewrite <- Hl, skipn_all, app_nil_r, Hl. reflexivity.
Qed.
Definition remembers (g1 : gref) (x : asol S) : Prop := gr_diag (as_g x) = VR (diag_at g1) (length (diag_at g1)) /\ gr_off (as_g x) = VR (off_at g1) (length (off_at g1)).
Lemma first_eq junk bp o ws h g : asolve isz tiny junk bp o ws h g asol_new =
  do G <- g_value h g; do r <- bgi_solve isz tiny junk (with_G bp G) o ws bsol_new;
  Ok (fst r, AS (snd r) (GR (gr_type g) (VR (diag_at g) (length (diag_at g))) (VR (off_at g) (length (off_at g))) (gr_n g) (g_dec (b_G (snd r)))), g_put h g (b_G (snd r))).
Proof.
  unfold asolve, g_assign. cbn [as_g asol_new gref_new gr_diag gr_off as_b]. fold (diag_at g). fold (off_at g).
  destruct (vec_new h (diag_at g)) as (c & -> & ->). cbn [bind fst snd]. destruct (vec_new h (off_at g)) as (c & -> & ->). cbn [bind fst snd].
  unfold g_value. cbn [gr_diag gr_off v_refs gr_type gr_n gr_dec]. fold (diag_at g). fold (off_at g).
  destruct (deref h (diag_at g)) as [ds|]; cbn [bind]; [|reflexivity]. destruct (deref h (off_at g)) as [os|]; cbn [bind]; [|reflexivity].
  destruct (bgi_solve _ _ _ _ _ _ _) as [[st b]|]; cbn [bind fst snd]; reflexivity.
Qed.
Lemma first_remembers junk bp o ws h g st x h' : asolve isz tiny junk bp o ws h g asol_new = Ok (st, x, h') -> remembers g x.
Proof. rewrite first_eq. intros E. apply bind_ok in E as (G & _ & E). apply bind_ok in E as (r & _ & E). injection E as _ <- _. split; reflexivity. Qed.
(** the call as a sequence: copies, then reading, solving and writing through the remembered references *)
Lemma later_eq junk bp o ws h g1 g x : remembers g1 x -> same_counts g1 g -> asolve isz tiny junk bp o ws h g x =
  do h1 <- assign_all h (diag_at g1) (diag_at g); do h2 <- assign_all h1 (off_at g1) (off_at g);
  do ds <- deref h2 (diag_at g1); do os <- deref h2 (off_at g1);
  do r <- bgi_solve isz tiny junk (with_G bp (StG (gr_type g) ds os (gr_n g) (gr_dec g))) o ws (as_b x);
  Ok (fst r, AS (snd r) (GR (gr_type g) (VR (diag_at g1) (length (diag_at g1))) (VR (off_at g1) (length (off_at g1))) (gr_n g) (g_dec (b_G (snd r)))), g_put h2 g1 (b_G (snd r))).
Proof.
  intros [R1 R2] [C1 C2]. unfold asolve, g_assign. rewrite R1, R2. fold (diag_at g). fold (off_at g). rewrite vec_keep by auto.
  destruct (assign_all h _ _) as [h1|]; cbn [bind fst snd]; [|reflexivity]. rewrite vec_keep by auto. destruct (assign_all h1 _ _) as [h2|]; cbn [bind fst snd]; [|reflexivity].
  unfold g_value. cbn [gr_diag gr_off v_refs gr_type gr_n gr_dec].
  destruct (deref h2 (diag_at g1)) as [ds|]; cbn [bind]; [|reflexivity]. destruct (deref h2 (off_at g1)) as [os|]; cbn [bind]; [|reflexivity].
  destruct (bgi_solve _ _ _ _ _ _ _) as [[st b]|]; cbn [bind fst snd]; reflexivity.
Qed.
Lemma calls_remembers g1 x : calls g1 x -> remembers g1 x.
Proof.
  induction 1 as [? ? ? ? ? ? ? ? E|? ? ? ? ? ? ? ? ? ? _ IH Hc E]; [apply (first_remembers _ _ _ _ _ _ _ _ _ E)|].
  rewrite (later_eq _ _ _ _ _ _ _ _ IH Hc) in E. repeat (apply bind_ok in E as (? & _ & E)). injection E as _ <- _. split; reflexivity.
Qed.

(** ** First call: the answer is the one for the caller's Hessian, and the caller's matrices are overwritten *)
Theorem C51_first_call junk bp o ws h g G : NoDup (matrices g) -> sees h g G ->
  match bgi_solve isz tiny junk (with_G bp G) o ws bsol_new with
  | Ok (st, b) => exists x h' L, asolve isz tiny junk bp o ws h g asol_new = Ok (st, x, h') /\ as_b x = b /\ left_by st G L /\ only_written h h' g L
  | UB => asolve isz tiny junk bp o ws h g asol_new = UB
  end.
Proof.
  intros HN HS. rewrite first_eq. rewrite (proj2 (value_sees S h g G) HS). cbn [bind].
  destruct (bgi_solve isz tiny junk (with_G bp G) o ws bsol_new) as [[st b]|] eqn:E; cbn [bind fst snd]; [|reflexivity].
  apply bsolve_left in E. cbn [bp_G with_G] in E. exists (AS b (GR (gr_type g) (VR (diag_at g) (length (diag_at g))) (VR (off_at g) (length (off_at g))) (gr_n g) (g_dec (b_G b)))), (g_put h g (b_G b)), (b_G b).
  split; [reflexivity|]. split; [reflexivity|]. split; [exact E|]. destruct (left_len _ _ _ _ E) as [L1 L2]. destruct HS as (S1 & S2 & _). apply holds_len in S1, S2. apply gput_spec; congruence.
Qed.

(** ** Later calls with other matrices of the same sizes: the answer is the one for the new Hessian, the new caller's
    matrices are left alone, and the matrices of the first call are overwritten *)
Theorem C51_later_call junk bp o ws h g1 g x G ds os : calls g1 x -> same_counts g1 g -> sees h g G ->
  NoDup (matrices g1) -> (forall a, In a (matrices g1) -> ~ In a (matrices g)) ->
  holds h (diag_at g1) ds -> holds h (off_at g1) os -> Forall2 (same_size S) ds (g_diag G) -> Forall2 (same_size S) os (g_off G) ->
  match bgi_solve isz tiny junk (with_G bp G) o ws (as_b x) with
  | Ok (st, b) => exists x' h' L, asolve isz tiny junk bp o ws h g x = Ok (st, x', h') /\ as_b x' = b /\ left_by st G L /\ only_written h h' g1 L
  | UB => asolve isz tiny junk bp o ws h g x = UB
  end.
Proof.
  intros HC Hc HS HN Hd H1 H2 F1 F2. rewrite (later_eq _ _ _ _ _ _ _ _ (calls_remembers _ _ HC) Hc). pose proof HN as HN0. apply NoDup_app_inv in HN0 as (N1 & N2 & N3). pose proof HS as (S1 & S2 & S3 & S4 & S5).
  rewrite (assign_copies S (diag_at g1) (diag_at g) h (g_diag G) ds); auto; cycle 1.
  { intros a Ha X. apply (Hd a); unfold matrices; apply in_or_app; auto. }
  cbn [bind]. set (h1 := put h (diag_at g1) (g_diag G)).
  assert (K1 : forall a, ~ In a (diag_at g1) -> h1 a = h a) by (intros a Ha; apply put_other; exact Ha).
  assert (HL1 : length (diag_at g1) = length (g_diag G)) by (rewrite (proj1 Hc); apply (holds_len S _ _ _ S1)).
  assert (HL2 : length (off_at g1) = length (g_off G)) by (rewrite (proj2 Hc); apply (holds_len S _ _ _ S2)).
  rewrite (assign_copies S (off_at g1) (off_at g) h1 (g_off G) os); auto; cycle 1.
  { intros a Ha X. apply (Hd a); unfold matrices; apply in_or_app; auto. }
  { apply (holds_agree S h); auto. intros a Ha. apply K1. intros X. apply (Hd a); unfold matrices; apply in_or_app; auto. }
  { apply (holds_agree S h); auto. intros a Ha. apply K1. intros X. apply (N3 a); auto. }
  cbn [bind]. set (h2 := put h1 (off_at g1) (g_off G)).
  rewrite (proj2 (deref_holds S h2 (diag_at g1) (g_diag G))). 2: { apply (holds_agree S h1); [|apply put_holds; auto]. intros a Ha. apply put_other. auto. }
  cbn [bind]. rewrite (proj2 (deref_holds S h2 (off_at g1) (g_off G))) by (apply put_holds; auto). cbn [bind].
  replace (StG (gr_type g) (g_diag G) (g_off G) (gr_n g) (gr_dec g)) with G by (rewrite S3, S4, S5; destruct G; reflexivity).
  destruct (bgi_solve isz tiny junk (with_G bp G) o ws (as_b x)) as [[st b]|] eqn:E; cbn [bind fst snd]; [|reflexivity].
  apply bsolve_left in E. cbn [bp_G with_G] in E. eexists _, _, (b_G b). split; [reflexivity|]. split; [reflexivity|]. split; [exact E|]. destruct (left_len _ _ _ _ E) as [L1 L2].
  destruct (gput_spec S h2 g1 (b_G b) HN) as (P1 & P2 & P3); [congruence|congruence|]. split; [exact P1|]. split; [exact P2|]. intros a Ha. rewrite P3 by exact Ha.
  unfold h2, h1. rewrite !put_other; auto; intros X; apply Ha; unfold matrices; apply in_or_app; auto.
Qed.

(** ** Every later call reads and writes through the matrices of the first one: they must still exist and have the sizes
    of the new blocks *)
Theorem C51_needs_first_matrices junk bp o ws h g1 g x : calls g1 x -> same_counts g1 g ->
  (exists k a b, ((nth_error (diag_at g1) k = Some a /\ nth_error (diag_at g) k = Some b) \/ (nth_error (off_at g1) k = Some a /\ nth_error (off_at g) k = Some b)) /\
     (h a = None \/ exists D E, h a = Some D /\ h b = Some E /\ ~ same_size S D E)) ->
  asolve isz tiny junk bp o ws h g x = UB.
Proof.
  intros HC Hc (k & a & b & HK & Hbad). rewrite (later_eq _ _ _ _ _ _ _ _ (calls_remembers _ _ HC) Hc).
  assert (HX : ~ exists v, dims S h a = Some v /\ dims S h b = Some v).
  { intros (v & V1 & V2). unfold dims in *. destruct Hbad as [Hn|(D & E & Ha & Hb & Hs)]; [rewrite Hn in V1; discriminate|]. rewrite Ha in V1. rewrite Hb in V2. apply Hs. injection V1 as <-. injection V2 as Z1 Z2. split; auto. }
  destruct (assign_all h (diag_at g1) (diag_at g)) as [h1|] eqn:E1; cbn [bind]; [|reflexivity]. apply assign_needs in E1 as (A1 & A2 & _).
  destruct (assign_all h1 (off_at g1) (off_at g)) as [h2|] eqn:E2; cbn [bind]; [|reflexivity]. apply assign_needs in E2 as (B1 & _ & _).
  exfalso. apply HX. destruct HK as [[K1 K2]|[K1 K2]]; [apply (A1 k); auto|]. rewrite <- !A2. apply (B1 k); auto.
Qed.

(** ** The same Hessian object again: the call takes the present contents of the matrices as Hessian *)
Theorem C51_same_object junk bp o ws h g x G : calls g x -> sees h g G -> NoDup (matrices g) ->
  match bgi_solve isz tiny junk (with_G bp G) o ws (as_b x) with
  | Ok (st, b) => exists x' h' L, asolve isz tiny junk bp o ws h g x = Ok (st, x', h') /\ as_b x' = b /\ left_by st G L /\ only_written h h' g L
  | UB => asolve isz tiny junk bp o ws h g x = UB
  end.
Proof.
  intros HC HS HN. rewrite (later_eq _ _ _ _ _ _ _ _ (calls_remembers _ _ HC) (conj eq_refl eq_refl)). pose proof HS as (S1 & S2 & S3 & S4 & S5).
  destruct (assign_same S (diag_at g) h (g_diag G) S1) as (h1 & -> & K1). cbn [bind].
  destruct (assign_same S (off_at g) h1 (g_off G)) as (h2 & -> & K2); [apply (holds_agree S h); auto|]. cbn [bind].
  rewrite (proj2 (deref_holds S h2 (diag_at g) (g_diag G))) by (apply (holds_agree S h); [intros; rewrite K2, K1; reflexivity|exact S1]).
  cbn [bind]. rewrite (proj2 (deref_holds S h2 (off_at g) (g_off G))) by (apply (holds_agree S h); [intros; rewrite K2, K1; reflexivity|exact S2]). cbn [bind].
  replace (StG (gr_type g) (g_diag G) (g_off G) (gr_n g) (gr_dec g)) with G by (rewrite S3, S4, S5; destruct G; reflexivity).
  destruct (bgi_solve isz tiny junk (with_G bp G) o ws (as_b x)) as [[st b]|] eqn:E; cbn [bind fst snd]; [|reflexivity].
  apply bsolve_left in E. cbn [bp_G with_G] in E. eexists _, _, (b_G b). split; [reflexivity|]. split; [reflexivity|]. split; [exact E|]. destruct (left_len _ _ _ _ E) as [L1 L2].
  apply holds_len in S1, S2. destruct (gput_spec S h2 g (b_G b) HN) as (P1 & P2 & P3); [congruence|congruence|]. split; [exact P1|]. split; [exact P2|]. intros a Ha. rewrite P3 by exact Ha. rewrite K2, K1. reflexivity.
Qed.
(** Hence a second call right after the first solves the problem whose Hessian is the Cholesky factor left by the first *)
Theorem C51_second_call_uses_factor junk bp o ws h g x G st h' : sees h g G -> NoDup (matrices g) ->
  asolve isz tiny junk bp o ws h g asol_new = Ok (st, x, h') ->
  exists L, left_by st G L /\ forall junk2 bp2 o2 ws2,
  match bgi_solve isz tiny junk2 (with_G bp2 (StG (g_type G) (g_diag L) (g_off L) (g_n G) (g_dec G))) o2 ws2 (as_b x) with
  | Ok (st2, b) => exists x' h2, asolve isz tiny junk2 bp2 o2 ws2 h' g x = Ok (st2, x', h2) /\ as_b x' = b
  | UB => asolve isz tiny junk2 bp2 o2 ws2 h' g x = UB
  end.
Proof.
  intros HS HN E. pose proof (C51_first_call junk bp o ws h g G HN HS) as H1. destruct (bgi_solve isz tiny junk (with_G bp G) o ws bsol_new) as [[st1 b1]|]; [|rewrite E in H1; discriminate].
  destruct H1 as (x1 & h1 & L1 & E1 & Eb & HL & HW). rewrite E in E1. injection E1 as <- <- <-. exists L1. split; [exact HL|]. intros junk2 bp2 o2 ws2.
  destruct HS as (S1 & S2 & S3 & S4 & S5). destruct HW as (W1 & W2 & W3).
  pose proof (C51_same_object junk2 bp2 o2 ws2 h' g x (StG (g_type G) (g_diag L1) (g_off L1) (g_n G) (g_dec G)) (cl_first _ _ _ _ _ _ _ _ _ E)) as H2.
  destruct (bgi_solve isz tiny junk2 _ o2 ws2 (as_b x)) as [[st2 b2]|]; [|apply H2; [repeat split; auto|exact HN]].
  destruct H2 as (x' & h2 & L2 & E2 & Eb2 & _); [repeat split; auto|exact HN|]. exists x', h2. auto.
Qed.

(** ** Any call of any object: no matrix is touched except those of the caller and those the object remembers *)
Lemma in_skipn (a : nat) n : forall l, In a (skipn n l) -> In a l.
Proof. induction n as [|n IH]; intros [|y l] X; cbn in *; auto. Qed.
Lemma in_firstn (a : nat) n : forall l, In a (firstn n l) -> In a l.
Proof. induction n as [|n IH]; intros [|y l] X; cbn in *; auto; [contradiction|]. destruct X; auto. Qed.
Lemma vec_frame h v src h' v' : vec_assign (S:=S) h v src = Ok (h', v') -> (forall a, ~ In a (v_refs v) -> h' a = h a) /\ (forall a, In a (v_refs v') -> In a (v_refs v) \/ In a src).
Proof.
  unfold vec_assign. destruct (_ <? _); [intros E; injection E as <- <-; cbn; auto|]. intros E. apply bind_ok in E as (h1 & E1 & E). injection E as <- <-. apply assign_needs in E1 as (_ & _ & H). split; [exact H|].
  cbn [v_refs]. intros a Ha. apply in_app_or in Ha as [Ha|Ha]; [left|right].
  - apply (in_firstn _ _ _ Ha).
  - apply (in_skipn _ _ _ Ha).
Qed.
Theorem C51_frame junk bp o ws h g x st x' h' : asolve isz tiny junk bp o ws h g x = Ok (st, x', h') ->
  forall a, ~ In a (matrices g) -> ~ In a (matrices (as_g x)) -> h' a = h a.
Proof.
  unfold asolve, g_assign. intros E a Hg Hx. apply bind_ok in E as ((h1 & p) & E1 & E). apply bind_ok in E1 as ((hd & vd) & E1 & E2). apply bind_ok in E2 as ((ho & vo) & E2 & E3). cbn [fst snd] in *. injection E3 as <- <-.
  apply bind_ok in E as (G & EG & E). apply bind_ok in E as ((st1 & b) & _ & E). injection E as _ _ <-. 
  apply vec_frame in E1 as [F1 I1], E2 as [F2 I2]. unfold matrices, diag_at, off_at in Hg, Hx. rewrite in_app_iff in Hg, Hx.
  unfold g_put. cbn [gr_diag gr_off]. rewrite !put_other; [rewrite F2, F1; auto| |]; intros X; [apply I1 in X|apply I2 in X]; tauto.
Qed.
End Alias.

(** ** On doubles: minimise 8 x^2 - 16 x twice with the same objects.  The minimiser is 1; the second call answers 4 *)
Definition fb (v : float) : blk Fops := @Bk Fops 1 1 (fun _ _ => v).
Definition fpb : bproblem Fops := @BP Fops (StG TriBlockDiagonal [] [] 0 false) (fun _ => (-16)%float) 1 (stc_new [@Bk Fops 1 0 (fun _ _ => 0%float)]) (fun _ => None) 0 (fun _ => None) 0 (fun _ => None) 0 (fun _ => None) 0.
Definition fh : heap Fops := fun a => if a =? 5 then Some (fb 16) else None.
Definition fg : gref := GR TriBlockDiagonal (VR [5] 1) (VR [] 0) 1 false.
Definition two_calls : res (list float * list float) :=
  let run h x := asolve (S:=Fops) (fun v => PrimFloat.eqb v 0) 0%float (fun _ => 0%float) fpb (@Opt Fops 50 0x1p300%float false true) [] h fg x in
  do r1 <- run fh asol_new; let '(_, x1, h1) := r1 in do s1 <- solution (b_s (as_b x1));
  do r2 <- run h1 x1; let '(_, x2, h2) := r2 in do s2 <- solution (b_s (as_b x2)); Ok (s1, s2).
Theorem C51_second_solve_wrong : two_calls = Ok ([1%float], [4%float]).
Proof. vm_compute. reflexivity. Qed.
(** the hypotheses of the theorems above are met: an object that has been called, and a second Hessian *)
Definition fg2 : gref := GR TriBlockDiagonal (VR [7] 1) (VR [] 0) 1 false.
Definition fh2 (other : blk Fops) : heap Fops := fun a => if a =? 5 then Some (fb 16) else if a =? 7 then Some other else None.
Notation fcall h g x := (asolve (S:=Fops) (fun v => PrimFloat.eqb v 0) 0%float (fun _ => 0%float) fpb (@Opt Fops 50 0x1p300%float false true) [] h g x).
Lemma called_ok : exists st x h', fcall fh fg asol_new = Ok (st, x, h').
Proof.
  assert (H : match fcall fh fg asol_new with Ok _ => true | UB => false end = true) by (vm_compute; reflexivity).
  destruct (fcall fh fg asol_new) as [[[st x] h']|]; [eauto|discriminate].
Qed.
Example C51_nonvacuous : exists x G, calls Fops (fun v => PrimFloat.eqb v 0) 0%float fg x /\ same_counts fg fg2 /\ sees Fops (fh2 (fb 9)) fg2 G /\
  NoDup (matrices fg) /\ (forall a, In a (matrices fg) -> ~ In a (matrices fg2)) /\ holds Fops (fh2 (fb 9)) (diag_at fg) [fb 16] /\ holds Fops (fh2 (fb 9)) (off_at fg) [] /\ Forall2 (same_size Fops) [fb 16] (g_diag G) /\ Forall2 (same_size Fops) [] (g_off G).
Proof.
  destruct called_ok as (st & x & h' & E). exists x, (StG TriBlockDiagonal [fb 9] [] 1 false). split; [exact (cl_first Fops (fun v => PrimFloat.eqb v 0) 0%float fg _ _ _ _ _ _ _ _ E)|]. split; [split; reflexivity|].
  split; [repeat split; repeat constructor|]. split; [repeat constructor; intros []|]. split; [intros a [<-|[]] [X|[]]; discriminate|]. split; [repeat constructor|]. split; [repeat constructor|]. split; repeat constructor.
Qed.
(** the second problem has a block of another size, or the matrices of the first one are gone *)
Example C51_nonvacuous_needs : (exists D E, fh2 (@Bk Fops 2 2 (fun _ _ => 1%float)) 5 = Some D /\ fh2 (@Bk Fops 2 2 (fun _ _ => 1%float)) 7 = Some E /\ ~ same_size Fops D E) /\
  nth_error (diag_at fg) 0 = Some 5 /\ nth_error (diag_at fg2) 0 = Some 7 /\ (fun a => if a =? 7 then Some (fb 9) else None) 5 = None.
Proof. split; [eexists _, _; split; [reflexivity|]; split; [reflexivity|]; intros [X _]; discriminate|]. repeat split; reflexivity. Qed.

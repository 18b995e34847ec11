(** Memory safety and control flow of the dense solver, for ANY scalar
    arithmetic satisfying three laws (exact reals and IEEE doubles both do).
    Nothing here uses the mathematics of the algorithm. *)
From Coq Require Import List Arith ZArith Lia Bool.
From Verif Require Import Base ActiveSet ActiveSetProofs Num Solver LinAlg GIBase GIInv.
Import ListNotations.

(** The only facts about the arithmetic that are needed *)
Record safe_ops (S : ops) : Prop := {
  so_self : forall a b, ltb S a b = true -> eqb S a a = true;      (* a < b implies a == a *)
  so_zero : forall key n, ltb S (eps14 S) (sqrt_ S (sumn key n (fun _ => mul S (zero S) (zero S)))) = false   (* ||0|| is not > 1e-14 *)
}.

Section Safe.
Variable S : ops.
Notation problem := (problem S).
Notation sol := (sol S).

Definition gn (pb : problem) := p_Grows pb.
Definition gc_ (pb : problem) := p_Ccols pb.
Definition gb (pb : problem) := p_xlsize pb.
Definition gcb (pb : problem) := (gc_ pb + gb pb)%nat.

(** bounds of constraint [i] *)
Definition glo (pb : problem) (i : nat) := if (i <? gc_ pb)%nat then p_bl pb i else p_xl pb (i - gc_ pb)%nat.
Definition gup (pb : problem) (i : nat) := if (i <? gc_ pb)%nat then p_bu pb i else p_xu pb (i - gc_ pb)%nat.

Record gsh (pb : problem) (s : sol) : Prop := {
  g_sizes : sizes_ok pb = true;
  g_good : good (s_A s); g_nc : a_nc (s_A s) = gc_ pb; g_nb : a_nb (s_A s) = gb pb; g_n : s_n s = gn pb;
  g_x : (gn pb <= w_size (s_x s))%nat; g_z : (gn pb <= w_size (s_z s))%nat; g_d : (gn pb <= w_size (s_d s))%nat;
  g_J : (gn pb * gn pb <= w_size (s_J s))%nat; g_R : (gn pb * gn pb <= w_size (s_R s))%nat;
  g_u : (gcb pb <= w_size (s_u s))%nat; g_r : (gcb pb <= w_size (s_r s))%nat
}.

Lemma gsizes_nb (pb : problem) : sizes_ok pb = true -> (gb pb <= gn pb)%nat.
Proof.
  unfold sizes_ok. rewrite !andb_true_iff, orb_true_iff, !Nat.eqb_eq. unfold gb, gn. intuition lia.
Qed.
Lemma gnact_len pb s : gsh pb s -> nact (s_A s) = length (a_active (s_A s)).
Proof. intros H. apply nact_length, H. Qed.
Lemma gnact_le pb s : gsh pb s -> (nact (s_A s) <= gcb pb)%nat.
Proof.
  intros H. unfold gcb. rewrite <- (g_nc _ _ H), <- (g_nb _ _ H).
  pose proof (good_nbActive_le _ (g_good _ _ H)). unfold nact, nbAll in *. lia.
Qed.
Lemma gstat_len pb s : gsh pb s -> length (a_status (s_A s)) = gcb pb.
Proof. intros H. rewrite (coh_len _ (proj1 (g_good _ _ H))), (g_nc _ _ H), (g_nb _ _ H). reflexivity. Qed.
Lemma gas_stat pb s i : gsh pb s -> (i < gcb pb)%nat -> as_stat (s_A s) i = Ok (stt (s_A s) i).
Proof.
  intros H Hi. unfold as_stat, nbAll. rewrite (g_nc _ _ H), (g_nb _ _ H).
  change (gc_ pb + gb pb)%nat with (gcb pb). apply Nat.ltb_lt in Hi as Hi'. rewrite Hi'. simpl.
  rewrite (nth_error_nth' _ INACTIVE); [reflexivity|]. rewrite (gstat_len _ _ H). auto.
Qed.
Lemma gas_statBnd pb s i : gsh pb s -> (i < gb pb)%nat -> as_statBnd (s_A s) i = Ok (stt (s_A s) (gc_ pb + i)).
Proof.
  intros H Hi. unfold as_statBnd. rewrite (g_nc _ _ H), (g_nb _ _ H).
  apply Nat.ltb_lt in Hi as Hi'. rewrite Hi'. simpl.
  rewrite (nth_error_nth' _ INACTIVE); [reflexivity|]. rewrite (gstat_len _ _ H). unfold gcb. lia.
Qed.

Lemma ggetV (w : work S) n : (n <= w_size w)%nat -> getV w n = Ok (w_buf w).
Proof. intros H. unfold getV, vec_fits. apply Nat.leb_le in H. rewrite H. auto. Qed.
Lemma ggetM (w : work S) r c ld : (ld * c <= w_size w)%nat -> (r <= ld)%nat -> getM w r c ld = Ok (view ld (w_buf w)).
Proof. intros H1 H2. unfold getM, mat_fits. apply Nat.leb_le in H1, H2. rewrite H1, H2. auto. Qed.

Definition gvalid (pb : problem) (sc : selcstr) : Prop :=
  (sc_idx sc < gcb pb)%nat /\ kind_ok (gc_ pb) (sc_idx sc) (sc_st sc) = true.

Lemma gcn_ok pb sc : gvalid pb sc -> cn_ok pb sc = true.
Proof.
  intros (_ & HK). apply kind_lt in HK. unfold cn_ok. change (p_Ccols pb) with (gc_ pb).
  destruct (sc_st sc); simpl; try contradiction;
   repeat match goal with |- context[(?a <? ?b)%nat] => destruct (Nat.ltb_spec a b); try lia end;
   repeat match goal with |- context[(?a <=? ?b)%nat] => destruct (Nat.leb_spec a b); try lia end; auto.
Qed.
Lemma gcn_preMt pb sc (M : mat S) : sizes_ok pb = true -> gvalid pb sc -> exists d, cn_preMt pb sc (gn pb) M = Ok d.
Proof.
  intros Hs (Hi & HK). apply kind_lt in HK. apply gsizes_nb in Hs. unfold gcb in Hi.
  unfold cn_preMt. change (p_Ccols pb) with (gc_ pb).
  destruct (sc_st sc); try contradiction; try (eexists; reflexivity);
   (destruct (Nat.ltb_spec (sc_idx sc - gc_ pb) (gn pb)); [|lia]); simpl; eexists; reflexivity.
Qed.
Lemma gcn_dot pb sc (v : vec S) : sizes_ok pb = true -> gvalid pb sc -> exists d, cn_dot pb sc (gn pb) v = Ok d.
Proof.
  intros Hs (Hi & HK). apply kind_lt in HK. apply gsizes_nb in Hs. unfold gcb in Hi.
  unfold cn_dot. change (p_Ccols pb) with (gc_ pb).
  destruct (sc_st sc); try contradiction; try (eexists; reflexivity);
   (destruct (Nat.ltb_spec (sc_idx sc - gc_ pb) (gn pb)); [|lia]); simpl; eexists; reflexivity.
Qed.

(** Same sizes, counters and everything the control flow looks at *)
Lemma gsh_trans pb s s' : gsh pb s -> good (s_A s') -> a_nc (s_A s') = a_nc (s_A s) -> a_nb (s_A s') = a_nb (s_A s) ->
  s_n s' = s_n s -> w_size (s_x s') = w_size (s_x s) -> w_size (s_z s') = w_size (s_z s) -> w_size (s_d s') = w_size (s_d s) ->
  w_size (s_J s') = w_size (s_J s) -> w_size (s_R s') = w_size (s_R s) -> w_size (s_u s') = w_size (s_u s) ->
  w_size (s_r s') = w_size (s_r s) -> gsh pb s'.
Proof. intros [] ? ? ? ? ? ? ? ? ? ? ?. split; try congruence; lia. Qed.

(** ** computeStep *)
Lemma gstep pb s sc : gsh pb s -> gvalid pb sc -> (nact (s_A s) <= gn pb)%nat ->
  exists s', computeStep pb s sc = Ok s' /\ gsh pb s' /\ s_A s' = s_A s /\ s_it s' = s_it s /\ s_x s' = s_x s /\
    s_u s' = s_u s /\ s_f s' = s_f s /\ s_exp s' = s_exp s /\ s_G s' = s_G s /\
    (nact (s_A s) = gn pb -> forall i, (i < gn pb)%nat -> w_buf (s_z s') i = zero S).
Proof.
  intros HS Hv Hq. unfold computeStep. pose proof (gnact_le _ _ HS) as Hqm.
  pose proof HS as [H1 H2 H3 H4 H5 H6 H7 H8 H9 H10 H11 H12].
  rewrite H5. set (n := gn pb) in *. set (q := nact (s_A s)) in *.
  rewrite ggetV by auto. cbn [bind]. rewrite ggetM by (auto; lia). cbn [bind]. rewrite ggetM; [|nia|auto]. cbn [bind].
  rewrite ggetV by auto. cbn [bind]. rewrite ggetV by lia. cbn [bind].
  rewrite gcn_ok by auto. cbn [guard].
  destruct (gcn_preMt pb sc (view n (w_buf (s_J s))) H1 Hv) as (d1 & Ed). fold n in Ed. rewrite Ed. cbn [bind].
  apply Nat.leb_le in Hq as Hq'. rewrite Hq'. cbn [guard].
  eexists. split; [reflexivity|]. split.
  - eapply gsh_trans; eauto.
  - repeat (split; [reflexivity|]). intros E i Hi. simpl. rewrite vm_at. unfold vhead. apply Nat.ltb_lt in Hi. rewrite Hi.
    replace (n - q)%nat with 0%nat by lia. apply sumn_O.
Qed.

(** ** Selection *)
Definition gsome (pb : problem) (sc : selcstr) : Prop :=
  match sc_st sc with UPPER | UPPER_BOUND => gup pb (sc_idx sc) <> None | _ => glo pb (sc_idx sc) <> None end.
Record gsel (pb : problem) (A : aset) (sc : selcstr) : Prop := {
  gs_valid : gvalid pb sc; gs_in : stt A (sc_idx sc) = INACTIVE; gs_neq : isEq (sc_st sc) = false; gs_some : gsome pb sc
}.
Definition selok (pb : problem) (A : aset) (acc : carrier S * selcstr) : Prop :=
  sc_st (snd acc) = INACTIVE \/ gsel pb A (snd acc).

Lemma gsel_one pb A cx k acc sl su : (k < gcb pb)%nat ->
  (if (k <? gc_ pb)%nat then sl = LOWER /\ su = UPPER else sl = LOWER_BOUND /\ su = UPPER_BOUND) ->
  stt A k = INACTIVE -> selok pb A acc ->
  selok pb A (sel_one cx (glo pb k) (gup pb k) k sl su acc).
Proof.
  intros Hk Hkind Hst Hacc. unfold sel_one, below, above.
  assert (Hl : glo pb k <> None -> gsel pb A (SC k sl)).
  { intros H. destruct (k <? gc_ pb)%nat eqn:E; destruct Hkind as [-> ->]; split; auto; split; auto; simpl; rewrite E; auto. }
  assert (Hu : gup pb k <> None -> gsel pb A (SC k su)).
  { intros H. destruct (k <? gc_ pb)%nat eqn:E; destruct Hkind as [-> ->]; split; auto; split; auto; simpl; rewrite E; auto. }
  assert (Hup : selok pb A match (match gup pb k with Some b => let v := sub S b cx in if ltb S v (fst acc) then Some v else None | None => None end) with
     | Some v => (v, SC k su) | None => acc end).
  { destruct (gup pb k) as [b|] eqn:E; [|exact Hacc]. cbv zeta. destruct (ltb S (sub S b cx) (fst acc)); [|exact Hacc].
    right. apply Hu. congruence. }
  destruct (glo pb k) as [l|] eqn:E; [|exact Hup]. cbv zeta. destruct (ltb S (sub S cx l) (fst acc)); [|exact Hup].
  right. apply Hl. congruence.
Qed.

Lemma gselect pb s : gsh pb s -> exists sc, selectViolated pb s = Ok sc /\ (sc_st sc = INACTIVE \/ gsel pb (s_A s) sc).
Proof.
  intros HS. unfold selectViolated. rewrite (g_n _ _ HS). rewrite ggetV by apply HS. cbn [bind].
  rewrite (g_nc _ _ HS), (g_nb _ _ HS). set (x := w_buf (s_x s)).
  assert (H1 : forall k, (k <= gc_ pb)%nat -> exists acc, sel_cstr pb (s_A s) x k (zero S, SC 0 INACTIVE) = Ok acc /\ selok pb (s_A s) acc).
  { induction k as [|k IH]; intros Hk; [eexists; split; [reflexivity|]; left; reflexivity|].
    destruct IH as (acc & E & HA); [lia|]. cbn [sel_cstr]. rewrite E. cbn [bind]. unfold isActive.
    rewrite (gas_stat pb) by (auto; unfold gcb; lia). cbn [bind]. eexists. split; [reflexivity|].
    destruct (status_eqb_spec (stt (s_A s) k) INACTIVE) as [Es|Es]; simpl; auto.
    assert (Hc : (k <? gc_ pb)%nat = true) by (apply Nat.ltb_lt; lia).
    replace (p_bl pb k) with (glo pb k) by (unfold glo; rewrite Hc; auto).
    replace (p_bu pb k) with (gup pb k) by (unfold gup; rewrite Hc; auto).
    apply gsel_one; auto; [unfold gcb; lia|rewrite Hc; auto]. }
  destruct (H1 (gc_ pb)) as (acc & E & HA); auto. rewrite E. cbn [bind].
  assert (H2 : forall k, (k <= gb pb)%nat -> exists acc', sel_bnd pb (s_A s) x k acc = Ok acc' /\ selok pb (s_A s) acc').
  { induction k as [|k IH]; intros Hk; [eexists; split; [reflexivity|]; auto|].
    destruct IH as (acc1 & E1 & HA1); [lia|]. cbn [sel_bnd]. rewrite E1. cbn [bind]. unfold isActiveBnd.
    rewrite (gas_statBnd pb) by (auto; lia). cbn [bind]. eexists. split; [reflexivity|].
    destruct (status_eqb_spec (stt (s_A s) (gc_ pb + k)) INACTIVE) as [Es|Es]; simpl; auto.
    assert (Hc : (gc_ pb + k <? gc_ pb)%nat = false) by (apply Nat.ltb_ge; lia).
    rewrite (g_nc _ _ HS).
    replace (p_xl pb k) with (glo pb (gc_ pb + k)) by (unfold glo; rewrite Hc; f_equal; lia).
    replace (p_xu pb k) with (gup pb (gc_ pb + k)) by (unfold gup; rewrite Hc; f_equal; lia).
    apply gsel_one; auto; [unfold gcb; lia|rewrite Hc; auto]. }
  destruct (H2 (gb pb)) as (acc2 & E2 & HA2); auto. rewrite E2. cbn [bind]. eexists. split; [reflexivity|]. exact HA2.
Qed.

(** ** Step length *)
Lemma glen1 pb s (u r : vec S) big q : gsh pb s -> (q <= gcb pb)%nat ->
  exists t1 l, len1 (s_A s) u r big q = Ok (t1, l) /\
    (t1 = big \/ ((l < q)%nat /\ isEq (stt (s_A s) l) = false)).
Proof.
  intros HS. induction q as [|q IH]; intros Hq.
  - exists big, 0%nat. auto.
  - destruct IH as (t1 & l & E & H); [lia|]. cbn [len1]. rewrite E. cbn [bind].
    rewrite (gas_stat pb) by (auto; lia). cbn [bind fst].
    assert (H' : t1 = big \/ ((l < Datatypes.S q)%nat /\ isEq (stt (s_A s) l) = false)) by (destruct H as [H|[H H2]]; auto).
    destruct (isEq (stt (s_A s) q)) eqn:Eq; cbn [negb andb].
    { exists t1, l. auto. }
    destruct (ltb S (zero S) (r q)); [|exists t1, l; auto].
    destruct (ltb S (div S (u q) (r q)) t1); [|exists t1, l; auto].
    eexists _, q. split; [reflexivity|]. right. auto.
Qed.

Lemma glen2 pb (s : sol) (x z : vec S) sc : sizes_ok pb = true -> gsel pb (s_A s) sc -> exists t2, len2 pb (gn pb) x z sc = Ok t2.
Proof.
  intros Hs [(Hi & HK) Hin HE Hso]. apply kind_lt in HK. apply gsizes_nb in Hs. unfold gcb in Hi.
  unfold len2, gsome, glo, gup in *. change (p_Ccols pb) with (gc_ pb).
  destruct (sc_st sc); try contradiction; try discriminate;
    (destruct (Nat.ltb_spec (sc_idx sc) (gc_ pb)); try lia).
  - destruct (p_bl pb (sc_idx sc)); [eexists; reflexivity|congruence].
  - destruct (p_bu pb (sc_idx sc)); [eexists; reflexivity|congruence].
  - destruct (Nat.ltb_spec (sc_idx sc - gc_ pb) (gn pb)); [|lia]. simpl.
    destruct (p_xl pb (sc_idx sc - gc_ pb)); [eexists; reflexivity|congruence].
  - destruct (Nat.ltb_spec (sc_idx sc - gc_ pb) (gn pb)); [|lia]. simpl.
    destruct (p_xu pb (sc_idx sc - gc_ pb)); [eexists; reflexivity|congruence].
Qed.

(** ** Active-set updates *)
Lemma gadd pb s sc : gsh pb s -> gvalid pb sc -> stt (s_A s) (sc_idx sc) = INACTIVE -> (nact (s_A s) < gn pb)%nat ->
  exists s', addConstraint s sc = Ok s' /\ gsh pb s' /\ act_added (s_A s) sc (s_A s') /\ s_it s' = s_it s /\ s_exp s' = s_exp s /\
    s_x s' = s_x s /\ s_u s' = s_u s /\ s_f s' = s_f s /\ s_G s' = s_G s.
Proof.
  intros HS (Hi & HK) Hst Hq. unfold addConstraint.
  destruct (activate_added (s_A s) sc) as (A' & EA & HA); auto.
  { apply HS. } { rewrite (g_nc _ _ HS), (g_nb _ _ HS). auto. } { rewrite (g_nc _ _ HS). auto. }
  rewrite EA. cbn [bind]. unfold addConstraint_. cbn [s_n s_A s_d s_J s_R set_A].
  pose proof HS as [H1 H2 H3 H4 H5 H6 H7 H8 H9 H10 H11 H12].
  rewrite (aa_nact _ _ _ HA), H5. set (n := gn pb) in *. set (q := nact (s_A s)) in *.
  rewrite ggetV by auto. cbn [bind]. rewrite ggetM by (auto; lia). cbn [bind].
  destruct (add_loop n (n - Datatypes.S q) (n - 2) (w_buf (s_d s)) (view n (w_buf (s_J s)))) as (d', J').
  rewrite ggetM; [|nia|lia]. cbn [bind].
  replace (Datatypes.S q <=? n)%nat with true by (symmetry; apply Nat.leb_le; lia). cbn [guard].
  eexists. split; [reflexivity|]. split; [|split; [exact HA|repeat (split; [reflexivity|]); reflexivity]].
  eapply gsh_trans; eauto; apply HA.
Qed.
(** Adding to a full set is an error *)
Lemma gadd_full pb s sc : gsh pb s -> gvalid pb sc -> stt (s_A s) (sc_idx sc) = INACTIVE -> nact (s_A s) = gn pb ->
  addConstraint s sc = UB.
Proof.
  intros HS (Hi & HK) Hst Hq. unfold addConstraint.
  destruct (activate_added (s_A s) sc) as (A' & EA & HA); auto.
  { apply HS. } { rewrite (g_nc _ _ HS), (g_nb _ _ HS). auto. } { rewrite (g_nc _ _ HS). auto. }
  rewrite EA. cbn [bind]. unfold addConstraint_. cbn [s_n s_A s_d s_J s_R set_A].
  rewrite (aa_nact _ _ _ HA), (g_n _ _ HS), Hq. pose proof HS as [H1 H2 H3 H4 H5 H6 H7 H8 H9 H10 H11 H12].
  rewrite ggetV by auto. cbn [bind]. rewrite ggetM by (auto; lia). cbn [bind].
  destruct (add_loop _ _ _ _ _) as (d', J').
  unfold getM, mat_fits. replace (Datatypes.S (gn pb) <=? gn pb)%nat with false by (symmetry; apply Nat.leb_gt; lia).
  rewrite andb_false_r. reflexivity.
Qed.
Lemma gremove pb s l : gsh pb s -> (l < nact (s_A s))%nat -> (nact (s_A s) <= gn pb)%nat ->
  exists s', removeConstraint s l = Ok s' /\ gsh pb s' /\ act_removed (s_A s) l (s_A s') /\ s_it s' = s_it s /\ s_exp s' = s_exp s /\ s_G s' = s_G s.
Proof.
  intros HS Hl Hq. unfold removeConstraint.
  replace (l <=? nact (s_A s))%nat with true by (symmetry; apply Nat.leb_le; lia). cbn [guard s_A set_u].
  destruct (deactivate_removed (s_A s) l) as (A' & EA & HA); [apply HS|auto|].
  rewrite EA. cbn [bind]. unfold removeConstraint_. cbn [s_n s_A s_d s_J s_R s_u set_A set_u].
  pose proof HS as [H1 H2 H3 H4 H5 H6 H7 H8 H9 H10 H11 H12].
  pose proof (ar_nact _ _ _ HA) as EN.
  rewrite H5. set (n := gn pb) in *. set (q := nact A') in *.
  rewrite ggetM by (auto; lia). cbn [bind]. rewrite ggetM; [|nia|lia]. cbn [bind].
  destruct (rem_loop n q (q - l) l (view n (w_buf (s_R s)), view n (w_buf (s_J s)))) as (R', J').
  eexists. split; [reflexivity|]. split; [|split; [exact HA|repeat (split; [reflexivity|]); reflexivity]].
  eapply gsh_trans; eauto; apply HA.
Qed.

(** ** Iterations *)
Record glinv (pb : problem) (l : lst S) : Prop := {
  gl_sh : gsh pb (l_s l); gl_q : (nact (s_A (l_s l)) <= gn pb)%nat;
  gl_skip : l_skip l = true -> gsel pb (s_A (l_s l)) (l_sc l)
}.

Lemma ginactive_lt pb s i : gsh pb s -> (i < gcb pb)%nat -> stt (s_A s) i = INACTIVE -> (nact (s_A s) < gcb pb)%nat.
Proof.
  intros Hs Hi Hst. rewrite (gnact_len _ _ Hs). pose proof (g_good _ _ Hs) as ([CL CN CI CK] & _).
  assert (HN : NoDup (i :: a_active (s_A s))).
  { constructor; [|auto]. intros HIn. apply CI in HIn as (st & E & Hne).
    apply Hne. unfold stt in Hst. rewrite (nth_error_nth _ _ INACTIVE E) in Hst. auto. }
  assert (HI : incl (i :: a_active (s_A s)) (seq 0 (gcb pb))).
  { intros j [<-|Hj]; apply in_seq; [lia|]. apply CI in Hj as (st & E & _).
    assert ((j < length (a_status (s_A s)))%nat) by (apply nth_error_Some; congruence).
    rewrite (gstat_len _ _ Hs) in *. lia. }
  pose proof (NoDup_incl_length HN HI) as H. rewrite seq_length in H. simpl in H. lia.
Qed.

(** What an iteration may do, as seen from the active set *)
Inductive gcase (pb : problem) (l : lst S) : iter_out S -> Prop :=
| gc_stop st s' : st = SUCCESS \/ st = INFEASIBLE -> gsh pb s' -> s_A s' = s_A (l_s l) -> s_it s' = s_it (l_s l) ->
    s_exp s' = s_exp (l_s l) -> s_G s' = s_G (l_s l) -> gcase pb l (Stop st s')
| gc_add s' sc : gsh pb s' -> gsel pb (s_A (l_s l)) sc -> act_added (s_A (l_s l)) sc (s_A s') -> (nact (s_A (l_s l)) < gn pb)%nat ->
    s_it s' = s_it (l_s l) -> s_exp s' = s_exp (l_s l) -> s_G s' = s_G (l_s l) -> gcase pb l (Continue (L s' false sc))
| gc_drop s' sc i : gsh pb s' -> gsel pb (s_A (l_s l)) sc -> (i < nact (s_A (l_s l)))%nat ->
    isEq (stt (s_A (l_s l)) i) = false -> act_removed (s_A (l_s l)) i (s_A s') ->
    s_it s' = s_it (l_s l) -> s_exp s' = s_exp (l_s l) -> s_G s' = s_G (l_s l) -> gcase pb l (Continue (L s' true sc)).

Lemma giter pb o l : safe_ops S -> leb S (o_bigBnd o) (o_bigBnd o) = true -> glinv pb l ->
  exists out, iter pb o l = Ok out /\ gcase pb l out.
Proof.
  intros [Lself Lzero] Lbig [HS Hq Hsk]. unfold iter.
  (* step 1 *)
  assert (H1 : step1 pb l = Ok None \/
    exists s0 sc, step1 pb l = Ok (Some (L s0 (l_skip l) sc)) /\ gsh pb s0 /\ gsel pb (s_A (l_s l)) sc /\
      s_A s0 = s_A (l_s l) /\ s_it s0 = s_it (l_s l) /\ s_exp s0 = s_exp (l_s l) /\ s_G s0 = s_G (l_s l)).
  { unfold step1. destruct (l_skip l) eqn:Esk.
    - right. exists (l_s l), (l_sc l). split; [destruct l; simpl in *; subst; auto|]. split; auto.
    - destruct (gselect pb (l_s l) HS) as (sc & E & [Hn|Hsel]); rewrite E; cbn [bind].
      + left. rewrite Hn. auto.
      + right. pose proof Hsel as [(Hi & HK) Hin _ _].
        assert (Hlt : (nact (s_A (l_s l)) < gcb pb)%nat) by (eapply ginactive_lt; eauto).
        rewrite ggetV by (pose proof (g_r _ _ HS); lia). cbn [bind].
        rewrite ggetV by (pose proof (g_u _ _ HS); lia). cbn [bind].
        eexists _, sc. split; [destruct (sc_st sc) eqn:Ek; try reflexivity; simpl in HK; discriminate|].
        split; [|split; [auto|repeat split; reflexivity]]. eapply gsh_trans; eauto; try reflexivity. apply HS. }
  destruct H1 as [E|(s0 & sc & E & HS0 & Hsel & EA & Eit & Eex & EG)]; rewrite E; cbn [bind].
  { eexists. split; [reflexivity|]. apply gc_stop; auto. }
  unfold step2. cbn [l_s l_sc]. pose proof Hsel as [Hv Hin Hneq Hso].
  destruct (gstep pb s0 sc HS0 Hv) as (s1 & E1 & HS1 & A1 & I1 & X1 & U1 & F1 & P1 & G1 & Z1); [rewrite EA; auto|].
  rewrite E1. cbn [bind]. unfold computeStepLength. rewrite A1.
  destruct (glen1 pb s1 (w_buf (s_u s1)) (w_buf (s_r s1)) (o_bigBnd o) (nact (s_A s0)) HS1) as (t1 & i & EL & Hl).
  { rewrite EA. eapply gnact_le; eauto. }
  rewrite A1 in EL, Hl. rewrite EL. cbn [bind]. rewrite gcn_ok by auto. cbn [guard fst snd].
  rewrite (g_n _ _ HS1), (g_n _ _ HS0).
  assert (Hqlt : (nact (s_A s0) < gcb pb)%nat) by (rewrite EA; apply (ginactive_lt pb (l_s l) (sc_idx sc)); auto; apply Hv).
  assert (Ht2 : exists t2, (if ltb S (eps14 S) (norm (gn pb) (w_buf (s_z s1))) then len2 pb (gn pb) (w_buf (s_x s1)) (w_buf (s_z s1)) sc else Ok (o_bigBnd o)) = Ok t2
     /\ (t2 = o_bigBnd o \/ (nact (s_A s0) < gn pb)%nat)).
  { destruct (ltb S (eps14 S) (norm (gn pb) (w_buf (s_z s1)))) eqn:En.
    - destruct (glen2 pb (l_s l) (w_buf (s_x s1)) (w_buf (s_z s1)) sc (g_sizes _ _ HS) Hsel) as (t2 & Et). exists t2. split; auto.
      right. rewrite EA. destruct (Nat.eq_dec (nact (s_A (l_s l))) (gn pb)) as [Ef|]; [|lia]. exfalso.
      rewrite <- EA in Ef. unfold norm, dot in En.
      assert (Es : sumn [20] (gn pb) (fun j => mul S (w_buf (s_z s1) j) (w_buf (s_z s1) j)) = sumn [20] (gn pb) (fun _ => mul S (zero S) (zero S))).
      { apply sumn_ext. intros j Hj. rewrite (Z1 Ef j Hj). reflexivity. }
      rewrite Es, Lzero in En. discriminate.
    - exists (o_bigBnd o). auto. }
  destruct Ht2 as (t2 & Et2 & Hroom). rewrite Et2. cbn [bind]. clear Et2.
  destruct (leb S (o_bigBnd o) (if ltb S t2 t1 then t2 else t1)) eqn:Bt.
  { eexists. split; [reflexivity|]. apply gc_stop; auto; congruence. }
  assert (Hdrop : (if ltb S t2 t1 then t2 else t1) = t1 -> leb S (o_bigBnd o) t1 = false ->
     (i < nact (s_A s0))%nat /\ isEq (stt (s_A s0) i) = false).
  { intros _ Hb. destruct Hl as [Hl|Hl]; auto. rewrite Hl, Lbig in Hb. discriminate. }
  assert (Hrem : forall s2, gsh pb s2 -> s_A s2 = s_A s0 -> s_it s2 = s_it s0 -> s_exp s2 = s_exp s0 -> s_G s2 = s_G s0 ->
     (i < nact (s_A s0))%nat /\ isEq (stt (s_A s0) i) = false ->
     exists out, (do s <- removeConstraint s2 i; do r0 <- getV (s_r s) (nact (s_A s0) - 1);
        do u0 <- getV (s_u s) (nact (s_A s0)); Ok (Continue (L s true sc))) = Ok out /\ gcase pb l out).
  { intros s2 HS2 EA2 Ei2 Ee2 EG2 (Hi & Hie).
    destruct (gremove pb s2 i HS2) as (s3 & E3 & HS3 & HA3 & I3 & P3 & G3); [rewrite EA2; auto|rewrite EA2, EA; auto|].
    rewrite E3. cbn [bind].
    rewrite ggetV by (pose proof (g_r _ _ HS3); lia). cbn [bind].
    rewrite ggetV by (pose proof (g_u _ _ HS3); lia). cbn [bind].
    eexists. split; [reflexivity|]. rewrite EA2, EA in HA3. rewrite EA in Hi, Hie. eapply gc_drop; eauto; congruence. }
  destruct (leb S (o_bigBnd o) t2) eqn:B2.
  - destruct (ltb S t2 t1) eqn:C21; [congruence|].
    apply Hrem; auto. eapply gsh_trans; eauto; try reflexivity. apply HS1.
  - destruct Hroom as [Hroom|Hroom]; [rewrite Hroom, Lbig in B2; discriminate|].
    destruct (gcn_dot pb sc (w_buf (s_z s1)) (g_sizes _ _ HS) Hv) as (nzv & En). rewrite En. cbn [bind].
    destruct (eqb S (if ltb S t2 t1 then t2 else t1) t2) eqn:Q.
    + match goal with |- context[addConstraint ?st sc] => set (s2 := st) end.
      assert (HS2 : gsh pb s2) by (unfold s2; eapply gsh_trans; eauto; try reflexivity; apply HS1).
      assert (EA2 : s_A s2 = s_A (l_s l)) by (unfold s2; simpl; congruence).
      assert (K2 : s_it s2 = s_it (l_s l) /\ s_exp s2 = s_exp (l_s l) /\ s_G s2 = s_G (l_s l)) by (unfold s2; simpl; repeat split; congruence).
      clearbody s2. destruct (gadd pb s2 sc HS2 Hv) as (s3 & E3 & HS3 & HA3 & I3 & P3 & _ & _ & _ & G3); [rewrite EA2; auto|rewrite EA2, <- EA; auto|].
      rewrite E3. cbn [bind]. eexists. split; [reflexivity|]. rewrite EA2 in HA3. destruct K2 as (K2 & K3 & K4).
      apply gc_add; auto; try congruence.
    + assert (Et : (if ltb S t2 t1 then t2 else t1) = t1).
      { destruct (ltb S t2 t1) eqn:C21; auto. rewrite (Lself _ _ C21) in Q. discriminate. }
      rewrite Et in Bt. apply Hrem; auto; try (simpl; congruence).
      eapply gsh_trans; eauto; try reflexivity. apply HS1.
Qed.

Definition gbump (l : lst S) : lst S := L (set_it (l_s l) (Datatypes.S (s_it (l_s l)))) (l_skip l) (l_sc l).

Lemma gsh_set_it pb s k : gsh pb s -> gsh pb (set_it s k).
Proof. intros []. split; auto. Qed.

Lemma gcase_linv pb l l' : glinv pb l -> gcase pb l (Continue l') -> glinv pb (gbump l').
Proof.
  intros [HS Hq Hsk] HC. inversion HC as [|s' sc HS' Hsel HA Hlt|s' sc i HS' Hsel Hi Hie HA]; subst.
  - split; simpl; [apply gsh_set_it; auto| |discriminate]. rewrite (aa_nact _ _ _ HA). lia.
  - split; simpl; [apply gsh_set_it; auto| |].
    + pose proof (ar_nact _ _ _ HA). lia.
    + intros _. destruct Hsel as [V1 V2 V3 V4]. split; auto.
      rewrite (ar_stt _ _ _ HA). destruct (sc_idx sc =? act (s_A (l_s l)) i)%nat; auto.
Qed.

(** An invariant of the active set preserved by every iteration holds when the loop ends *)
Lemma gloop_inv pb o (I : aset -> Prop) : safe_ops S -> leb S (o_bigBnd o) (o_bigBnd o) = true ->
  (forall A sc A', I A -> stt A (sc_idx sc) = INACTIVE -> isEq (sc_st sc) = false -> act_added A sc A' -> I A') ->
  (forall A i A', I A -> good A -> (i < nact A)%nat -> isEq (stt A i) = false -> act_removed A i A' -> I A') ->
  forall fuel l, glinv pb l -> I (s_A (l_s l)) ->
  exists st s, loop pb o fuel l = Ok (st, s) /\ gsh pb s /\ I (s_A s) /\ (nact (s_A s) <= gn pb)%nat /\ s_exp s = s_exp (l_s l) /\ s_G s = s_G (l_s l) /\
    ((st = MAX_ITER_REACHED /\ s_it s = (s_it (l_s l) + fuel)%nat) \/
     ((st = SUCCESS \/ st = INFEASIBLE) /\ (s_it (l_s l) <= s_it s < s_it (l_s l) + fuel)%nat)).
Proof.
  intros HO HB Iadd Irem. induction fuel as [|f IH]; intros l HL HI; cbn [loop].
  - eexists _, _. split; [reflexivity|]. repeat (split; [apply HL || auto|]). left. split; auto.
  - destruct (giter pb o l HO HB HL) as (out & E & HC). rewrite E. cbn [bind].
    destruct out as [l'|st s].
    + pose proof (gcase_linv pb l l' HL HC) as HL'.
      assert (HI' : I (s_A (l_s l')) /\ s_exp (l_s l') = s_exp (l_s l) /\ s_it (l_s l') = s_it (l_s l) /\ s_G (l_s l') = s_G (l_s l)).
      { inversion HC as [|s' sc HS' Hsel HA Hlt Hit Hexp HG|s' sc i HS' Hsel Hi Hie HA Hit Hexp HG]; subst; simpl.
        - split; auto. eapply Iadd; eauto; apply Hsel.
        - split; auto. eapply Irem; eauto. apply (g_good _ _ (gl_sh _ _ HL)). }
      destruct HI' as (HI' & Eexp & Eit & EG).
      destruct (IH (gbump l') HL' HI') as (st & s & E2 & R1 & R2 & R3 & R4 & R4' & R5).
      exists st, s. split; [exact E2|]. split; auto. split; auto. split; auto. split; [rewrite R4; exact Eexp|]. split; [rewrite R4'; exact EG|].
      simpl in R5. rewrite Eit in R5. destruct R5 as [[R5 R6]|[R5 R6]]; [left|right]; split; auto; lia.
    + inversion HC as [st' s' Hst HS' HA Hit Hexp HG| |]; subst. eexists _, _. split; [reflexivity|].
      split; auto. split; [rewrite HA; auto|]. split; [rewrite HA; apply HL|]. split; auto. split; auto. right. split; auto. lia.
Qed.
End Safe.

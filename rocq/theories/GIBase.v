(** Shape invariant of the solver object and specifications of the building
    blocks of an iteration (selection, step, step length). *)
From Coq Require Import List Arith ZArith Lia Bool Reals Lra.
From Verif Require Import Base ActiveSet ActiveSetProofs Num Solver LinAlg QRUpdate QPSpec GIMath.
Import ListNotations.
Local Open Scope R_scope.

Notation rsol := (sol Rops).
Notation ropt := (options Rops).
Notation rlst := (lst Rops).

(** ** Sizes *)
Lemma sizes_ok_spec (pb : rproblem) : sizes_ok pb = true <->
  p_Gcols pb = nv pb /\ p_asize pb = nv pb /\ p_Crows pb = nv pb /\ p_blsize pb = nc pb /\
  p_busize pb = nc pb /\ (nb pb = nv pb \/ nb pb = 0%nat) /\ p_xusize pb = nb pb.
Proof.
  unfold sizes_ok, nv, nc, nb. rewrite !andb_true_iff, orb_true_iff, !Nat.eqb_eq. tauto.
Qed.

Lemma sizes_nb (pb : rproblem) : sizes_ok pb = true -> (nb pb <= nv pb)%nat.
Proof. rewrite sizes_ok_spec. intros (_ & _ & _ & _ & _ & [H|H] & _); lia. Qed.

(** ** The k-th active constraint, its signed normal and right-hand side *)
Definition act (A : aset) (k : nat) : nat := nth k (a_active A) 0%nat.
Definition stt (A : aset) (i : nat) : status := nth i (a_status A) INACTIVE.
Definition nsign (pb : rproblem) (i : nat) (st : status) : rvec :=
  match st with UPPER | UPPER_BOUND => fun a => - cvec pb i a | _ => cvec pb i end.
Definition nrhs (pb : rproblem) (i : nat) (st : status) : option R :=
  match st with UPPER | UPPER_BOUND => option_map Ropp (cup pb i) | _ => clo pb i end.
Definition Nact (pb : rproblem) (A : aset) (k : nat) : rvec := nsign pb (act A k) (stt A (act A k)).
Definition Bact (pb : rproblem) (A : aset) (k : nat) : option R := nrhs pb (act A k) (stt A (act A k)).

Record shape (pb : rproblem) (s : rsol) : Prop := {
  sh_sizes : sizes_ok pb = true;
  sh_good : good (s_A s);
  sh_nc : a_nc (s_A s) = nc pb;
  sh_nb : a_nb (s_A s) = nb pb;
  sh_n : s_n s = nv pb;
  sh_x : (nv pb <= w_size (s_x s))%nat;
  sh_z : (nv pb <= w_size (s_z s))%nat;
  sh_d : (nv pb <= w_size (s_d s))%nat;
  sh_J : (nv pb * nv pb <= w_size (s_J s))%nat;
  sh_R : (nv pb * nv pb <= w_size (s_R s))%nat;
  sh_u : (ncb pb <= w_size (s_u s))%nat;
  sh_r : (ncb pb <= w_size (s_r s))%nat
}.

Lemma shape_nact pb s : shape pb s -> nact (s_A s) = length (a_active (s_A s)).
Proof. intros H. apply nact_length, H. Qed.

Lemma shape_nact_le pb s : shape pb s -> (nact (s_A s) <= ncb pb)%nat.
Proof.
  intros H. unfold ncb. rewrite <- (sh_nc _ _ H), <- (sh_nb _ _ H).
  pose proof (good_nbActive_le _ (sh_good _ _ H)). unfold nact, nbAll in *. lia.
Qed.

Lemma shape_status_len pb s : shape pb s -> length (a_status (s_A s)) = ncb pb.
Proof. intros H. rewrite (coh_len _ (proj1 (sh_good _ _ H))), (sh_nc _ _ H), (sh_nb _ _ H). reflexivity. Qed.

Lemma as_stat_ok pb s i : shape pb s -> (i < ncb pb)%nat -> as_stat (s_A s) i = Ok (stt (s_A s) i).
Proof.
  intros H Hi. unfold as_stat, nbAll. rewrite (sh_nc _ _ H), (sh_nb _ _ H).
  change (nc pb + nb pb)%nat with (ncb pb). apply Nat.ltb_lt in Hi as Hi'. rewrite Hi'. simpl.
  rewrite (nth_error_nth' _ INACTIVE); [reflexivity|]. rewrite (shape_status_len _ _ H). auto.
Qed.
Lemma as_statBnd_ok pb s i : shape pb s -> (i < nb pb)%nat -> as_statBnd (s_A s) i = Ok (stt (s_A s) (nc pb + i)).
Proof.
  intros H Hi. unfold as_statBnd. rewrite (sh_nc _ _ H), (sh_nb _ _ H).
  apply Nat.ltb_lt in Hi as Hi'. rewrite Hi'. simpl.
  rewrite (nth_error_nth' _ INACTIVE); [reflexivity|]. rewrite (shape_status_len _ _ H). unfold ncb. lia.
Qed.
Lemma as_get_ok pb s k : shape pb s -> (k < nact (s_A s))%nat -> as_get (s_A s) k = Ok (act (s_A s) k).
Proof.
  intros H Hk. rewrite (shape_nact _ _ H) in Hk. unfold as_get.
  rewrite (nth_error_nth' _ 0%nat) by auto. reflexivity.
Qed.

Lemma act_props pb s k : shape pb s -> (k < nact (s_A s))%nat ->
  (act (s_A s) k < ncb pb)%nat /\ stt (s_A s) (act (s_A s) k) <> INACTIVE /\
  kind_ok (nc pb) (act (s_A s) k) (stt (s_A s) (act (s_A s) k)) = true.
Proof.
  intros H Hk. rewrite (shape_nact _ _ H) in Hk.
  destruct (sh_good _ _ H) as ([HL HN HI HK] & _ & _).
  assert (HIn : In (act (s_A s) k) (a_active (s_A s))) by (apply nth_In; auto).
  apply HI in HIn as (st & Est & Hst).
  assert (Hlt : (act (s_A s) k < length (a_status (s_A s)))%nat) by (apply nth_error_Some; congruence).
  assert (Estt : stt (s_A s) (act (s_A s) k) = st) by (unfold stt; apply nth_error_nth; auto).
  rewrite Estt. split; [rewrite (shape_status_len _ _ H) in Hlt; auto|]. split; auto.
  apply kind_ok_spec. destruct (HK _ _ Est Hst) as [K1 K2]. rewrite (sh_nc _ _ H) in K1, K2.
  destruct (Nat.lt_ge_cases (act (s_A s) k) (nc pb)); [left|right]; auto.
Qed.

Lemma act_inj pb s j k : shape pb s -> (j < nact (s_A s))%nat -> (k < nact (s_A s))%nat ->
  act (s_A s) j = act (s_A s) k -> j = k.
Proof.
  intros H Hj Hk E. rewrite (shape_nact _ _ H) in *.
  destruct (sh_good _ _ H) as ([HL HN HI HK] & _ & _).
  eapply NoDup_nth; eauto.
Qed.

Lemma act_surj pb s i : shape pb s -> stt (s_A s) i <> INACTIVE ->
  exists k, (k < nact (s_A s))%nat /\ act (s_A s) k = i.
Proof.
  intros H Hi. rewrite (shape_nact _ _ H).
  destruct (sh_good _ _ H) as ([HL HN HI HK] & _ & _).
  assert (HIn : In i (a_active (s_A s))).
  { apply HI. exists (stt (s_A s) i). split; auto. unfold stt in *.
    destruct (nth_error (a_status (s_A s)) i) eqn:E.
    - f_equal. symmetry. apply nth_error_nth. auto.
    - exfalso. apply Hi. apply nth_overflow. apply nth_error_None. auto. }
  destruct (In_nth _ _ 0%nat HIn) as (k & Hk & E). exists k. auto.
Qed.

(** ** Constraint normals (C34) *)
Definition sel_valid (pb : rproblem) (sc : selcstr) : Prop :=
  (sc_idx sc < ncb pb)%nat /\ kind_ok (nc pb) (sc_idx sc) (sc_st sc) = true.
Definition scn (pb : rproblem) (sc : selcstr) : rvec := nsign pb (sc_idx sc) (sc_st sc).
Definition scb (pb : rproblem) (sc : selcstr) : option R := nrhs pb (sc_idx sc) (sc_st sc).

Lemma kind_lt n i st : kind_ok n i st = true ->
  match st with
  | LOWER | UPPER | EQUALITY => (i < n)%nat
  | LOWER_BOUND | UPPER_BOUND | FIXED => (n <= i)%nat
  | INACTIVE => False
  end.
Proof.
  unfold kind_ok. destruct st; intros H; try discriminate;
    destruct (Nat.ltb_spec i n); simpl in H; auto; discriminate.
Qed.

Lemma cn_ok_valid pb sc : sel_valid pb sc -> cn_ok pb sc = true.
Proof.
  intros (_ & HK). apply kind_lt in HK. unfold cn_ok. change (p_Ccols pb) with (nc pb).
  destruct (sc_st sc); simpl; try contradiction;
   repeat match goal with |- context[(?a <? ?b)%nat] => destruct (Nat.ltb_spec a b); try lia end;
   repeat match goal with |- context[(?a <=? ?b)%nat] => destruct (Nat.leb_spec a b); try lia end; auto.
Qed.

Lemma tdot_delta n (M : rmat) k i : (i < n)%nat -> tdot n M k (fun a => if (a =? i)%nat then 1 else 0) = M i k.
Proof.
  intros H. unfold tdot. rewrite (sum_ext n _ (fun a => if (a =? i)%nat then M a k else 0)).
  - apply (sum_delta n i (fun a => M a k)); auto.
  - intros a Ha. destruct (a =? i)%nat; lra.
Qed.
Lemma tdot_opp n (M : rmat) k w : tdot n M k (fun a => - w a) = - tdot n M k w.
Proof. unfold tdot. rewrite <- sum_opp. apply sum_ext. intros; lra. Qed.
Lemma rdot_opp n u v : rdot n (fun a => - u a) v = - rdot n u v.
Proof. rewrite !dot_def, <- sum_opp. apply sum_ext. intros; lra. Qed.

Lemma cn_preMt_spec pb sc (M : rmat) : sizes_ok pb = true -> sel_valid pb sc ->
  exists d, @cn_preMt Rops pb sc (nv pb) M = Ok d /\ forall k, d k = tdot (nv pb) M k (scn pb sc).
Proof.
  intros Hs (Hi & HK). apply kind_lt in HK. apply sizes_nb in Hs. unfold ncb in Hi.
  unfold cn_preMt, scn, nsign, cvec. change (p_Ccols pb) with (nc pb).
  destruct (sc_st sc); try contradiction;
    (destruct (Nat.ltb_spec (sc_idx sc) (nc pb)); try lia).
  - eexists; split; [reflexivity|]. intros k. rops. reflexivity.
  - eexists; split; [reflexivity|]. intros k. rops. unfold tdot. apply sum_ext. intros; ring.
  - eexists; split; [reflexivity|]. intros k. rops. reflexivity.
  - destruct (Nat.ltb_spec (sc_idx sc - nc pb) (nv pb)); [|lia]. simpl.
    eexists; split; [reflexivity|]. intros k. rewrite tdot_delta by auto. auto.
  - destruct (Nat.ltb_spec (sc_idx sc - nc pb) (nv pb)); [|lia]. simpl.
    eexists; split; [reflexivity|]. intros k. rewrite tdot_opp, tdot_delta by auto. auto.
  - destruct (Nat.ltb_spec (sc_idx sc - nc pb) (nv pb)); [|lia]. simpl.
    eexists; split; [reflexivity|]. intros k. rewrite tdot_delta by auto. auto.
Qed.

Lemma cn_dot_spec pb sc (v : rvec) : sizes_ok pb = true -> sel_valid pb sc ->
  @cn_dot Rops pb sc (nv pb) v = Ok (rdot (nv pb) (scn pb sc) v).
Proof.
  intros Hs (Hi & HK). apply kind_lt in HK. apply sizes_nb in Hs. unfold ncb in Hi.
  unfold cn_dot, scn, nsign, cvec. change (p_Ccols pb) with (nc pb).
  destruct (sc_st sc); try contradiction;
    (destruct (Nat.ltb_spec (sc_idx sc) (nc pb)); try lia); rops.
  - rewrite dot_comm. reflexivity.
  - rewrite rdot_opp. rewrite dot_comm. reflexivity.
  - rewrite dot_comm. reflexivity.
  - destruct (Nat.ltb_spec (sc_idx sc - nc pb) (nv pb)); [|lia]. simpl.
    rewrite dot_delta by auto. auto.
  - destruct (Nat.ltb_spec (sc_idx sc - nc pb) (nv pb)); [|lia]. simpl.
    rewrite rdot_opp, dot_delta by auto. auto.
  - destruct (Nat.ltb_spec (sc_idx sc - nc pb) (nv pb)); [|lia]. simpl.
    rewrite dot_delta by auto. auto.
Qed.

(** ** Views *)
Definition Jof (s : rsol) : rmat := view (s_n s) (w_buf (s_J s)).
Definition Rof (s : rsol) : rmat := view (s_n s) (w_buf (s_R s)).
Definition xof (s : rsol) : rvec := w_buf (s_x s).
Definition zof (s : rsol) : rvec := w_buf (s_z s).
Definition uof (s : rsol) : rvec := w_buf (s_u s).
Definition rof (s : rsol) : rvec := w_buf (s_r s).
Definition dof (s : rsol) : rvec := w_buf (s_d s).

Lemma getV_ok (w : work Rops) n : (n <= w_size w)%nat -> getV w n = Ok (w_buf w).
Proof. intros H. unfold getV, vec_fits. apply Nat.leb_le in H. rewrite H. auto. Qed.
Lemma getV_inv (w : work Rops) n v : getV w n = Ok v -> (n <= w_size w)%nat /\ v = w_buf w.
Proof. unfold getV, vec_fits. destruct (Nat.leb_spec n (w_size w)); simpl; intros E; [|discriminate]. injection E as <-. auto. Qed.
Lemma getM_ok (w : work Rops) r c ld : (ld * c <= w_size w)%nat -> (r <= ld)%nat -> getM w r c ld = Ok (view ld (w_buf w)).
Proof. intros H1 H2. unfold getM, mat_fits. apply Nat.leb_le in H1, H2. rewrite H1, H2. auto. Qed.

(** Result of [computeStep] *)
Record step_rel (pb : rproblem) (s : rsol) (sc : selcstr) (s' : rsol) : Prop := {
  sr_shape : shape pb s';
  sr_it : s_it s' = s_it s; sr_n : s_n s' = s_n s; sr_A : s_A s' = s_A s; sr_f : s_f s' = s_f s;
  sr_x : s_x s' = s_x s; sr_u : s_u s' = s_u s; sr_exp : s_exp s' = s_exp s;
  sr_J : s_J s' = s_J s; sr_R : s_R s' = s_R s; sr_G : s_G s' = s_G s;
  sr_dof : forall j, (j < nv pb)%nat -> dof s' j = tdot (nv pb) (Jof s) j (scn pb sc);
  sr_zof : forall i, (i < nv pb)%nat -> zof s' i =
     rsum (nv pb - nact (s_A s)) (fun t => Jof s i (nact (s_A s) + t)%nat * dof s' (nact (s_A s) + t)%nat);
  sr_rof : (forall i, (i < nact (s_A s))%nat -> Rof s i i <> 0) ->
     forall i, (i < nact (s_A s))%nat ->
     rsum (nact (s_A s)) (fun k => upper (Rof s) i k * rof s' k) = dof s' i
}.

Lemma computeStep_spec pb s sc : shape pb s -> sel_valid pb sc -> (nact (s_A s) <= nv pb)%nat ->
  exists s', computeStep pb s sc = Ok s' /\ step_rel pb s sc s'.
Proof.
  intros Hs Hv Hq. unfold computeStep.
  pose proof (shape_nact_le _ _ Hs) as Hqm.
  pose proof Hs as Hs'. destruct Hs' as [H1 H2 H3 H4 H5 H6 H7 H8 H9 H10 H11 H12].
  rewrite H5. set (n := nv pb) in *. set (q := nact (s_A s)) in *.
  rewrite getV_ok by auto. cbn [bind].
  rewrite getM_ok by (auto; lia). cbn [bind].
  rewrite getM_ok; [|nia|auto]. cbn [bind].
  rewrite getV_ok by auto. cbn [bind].
  rewrite getV_ok by lia. cbn [bind].
  rewrite cn_ok_valid by auto. cbn [guard].
  destruct (cn_preMt_spec pb sc (view n (w_buf (s_J s))) H1 Hv) as (d1 & Ed & Hd).
  fold n in Ed. rewrite Ed. cbn [bind].
  apply Nat.leb_le in Hq as Hq'. rewrite Hq'. cbn [guard].
  eexists. split; [reflexivity|].
  split; try reflexivity; unfold Jof, Rof; rewrite ?H5; fold n.
  - split; auto.
  - intros j Hj. unfold dof; simpl. rewrite vm_at. unfold vhead.
    destruct (Nat.ltb_spec j n); [|lia]. apply Hd.
  - intros i Hi. unfold zof, dof; simpl. rewrite vm_at. unfold vhead at 1.
    destruct (Nat.ltb_spec i n); [|lia]. reflexivity.
  - intros Hdiag i Hi. fold q in Hi, Hdiag |- *. unfold rof, dof; simpl.
    rewrite vm_id. rewrite vm_id.
    rewrite (sum_ext q _ (fun k => upper (view n (w_buf (s_R s))) i k *
          @bwd Rops q q (view n (w_buf (s_R s))) (vhead n d1 (w_buf (s_d s))) k)).
    + apply (bwd_correct q (view n (w_buf (s_R s)))); auto.
    + intros k Hk. unfold vhead at 1. destruct (Nat.ltb_spec k q); [|lia]. auto.
Qed.

(** ** Selection (C32) *)
(** Violation of constraint [i] used by the code: signed slack (negative = violated) at the lower / upper side. *)
Definition slack_ge (b : option R) (v smin : R) : Prop := match b with Some b => smin <= v - b | None => True end.
Definition slack_le (b : option R) (v smin : R) : Prop := match b with Some b => smin <= b - v | None => True end.

Record sel_inv (pb : rproblem) (A : aset) (x : rvec) (k : nat) (acc : R * selcstr) : Prop := {
  si_le : fst acc <= 0;
  si_none : sc_st (snd acc) = INACTIVE -> fst acc = 0;
  si_some : sc_st (snd acc) <> INACTIVE ->
     sel_valid pb (snd acc) /\ (sc_idx (snd acc) < k)%nat /\ stt A (sc_idx (snd acc)) = INACTIVE /\
     fst acc < 0 /\ isEq (sc_st (snd acc)) = false /\
     exists b, scb pb (snd acc) = Some b /\ fst acc = rdot (nv pb) (scn pb (snd acc)) x - b;
  si_all : forall i, (i < k)%nat -> stt A i = INACTIVE ->
     slack_ge (clo pb i) (rdot (nv pb) (cvec pb i) x) (fst acc) /\
     (match clo pb i, cup pb i with Some l, Some u => l <= u | _, _ => True end ->
      slack_le (cup pb i) (rdot (nv pb) (cvec pb i) x) (fst acc)) /\
     (fst acc = 0 -> slack_le (cup pb i) (rdot (nv pb) (cvec pb i) x) 0)
}.

Lemma sel_one_spec pb A x k acc sl su :
  (k < ncb pb)%nat ->
  (if (k <? nc pb)%nat then sl = LOWER /\ su = UPPER else sl = LOWER_BOUND /\ su = UPPER_BOUND) ->
  stt A k = INACTIVE ->
  sel_inv pb A x k acc ->
  sel_inv pb A x (S k) (@sel_one Rops (rdot (nv pb) (cvec pb k) x) (clo pb k) (cup pb k) k sl su acc).
Proof.
  intros Hk Hkind Hst [I1 I2 I3 I4].
  assert (Hvl : sel_valid pb (SC k sl) /\ sl <> INACTIVE /\ isEq sl = false /\ scn pb (SC k sl) = cvec pb k /\ scb pb (SC k sl) = clo pb k).
  { unfold sel_valid, scn, scb, nsign, nrhs. simpl. destruct (k <? nc pb)%nat eqn:E; destruct Hkind as [-> ->];
     unfold kind_ok; rewrite E; repeat split; auto; discriminate. }
  assert (Hvu : sel_valid pb (SC k su) /\ su <> INACTIVE /\ isEq su = false /\ scn pb (SC k su) = (fun a => - cvec pb k a) /\ scb pb (SC k su) = option_map Ropp (cup pb k)).
  { unfold sel_valid, scn, scb, nsign, nrhs. simpl. destruct (k <? nc pb)%nat eqn:E; destruct Hkind as [-> ->];
     unfold kind_ok; rewrite E; repeat split; auto; discriminate. }
  destruct Hvl as (V1 & V2 & V2' & V3 & V4). destruct Hvu as (W1 & W2 & W2' & W3 & W4).
  set (cx := rdot (nv pb) (cvec pb k) x) in *.
  assert (Hold : forall smin', smin' <= fst acc -> (smin' < 0 \/ smin' = fst acc) -> forall i, (i < k)%nat -> stt A i = INACTIVE ->
     slack_ge (clo pb i) (rdot (nv pb) (cvec pb i) x) smin' /\
     (match clo pb i, cup pb i with Some l, Some u => l <= u | _, _ => True end ->
      slack_le (cup pb i) (rdot (nv pb) (cvec pb i) x) smin') /\
     (smin' = 0 -> slack_le (cup pb i) (rdot (nv pb) (cvec pb i) x) 0)).
  { intros smin' Hle Hor i Hi Hsi. destruct (I4 i Hi Hsi) as (J1 & J2 & J3). repeat split.
    - unfold slack_ge in *. destruct (clo pb i); auto. lra.
    - intros HH. specialize (J2 HH). unfold slack_le in *. destruct (cup pb i); auto. lra.
    - intros E. apply J3. lra. }
  unfold sel_one, below, above. rops.
  (* which branch *)
  destruct (clo pb k) as [l|] eqn:El.
  - destruct (Rltb_spec (cx - l) (fst acc)) as [Hlt|Hge].
    + (* lower selected *)
      split; simpl; [lra|congruence| |].
      * intros _. split; [auto|]. split; [lia|]. split; [auto|]. split; [lra|]. split; [auto|]. exists l. rewrite V3, V4. auto.
      * intros i Hi Hsi. destruct (Nat.eq_dec i k) as [->|Hne].
        -- rewrite El. fold cx. simpl. split; [lra|]. split; [|intros; lra].
           intros HH. unfold slack_le. destruct (cup pb k); auto. lra.
        -- apply Hold; auto; try lra; lia.
    + destruct (cup pb k) as [u|] eqn:Eu.
      * destruct (Rltb_spec (u - cx) (fst acc)) as [Hlt2|Hge2].
        -- split; simpl; [lra|congruence| |].
           ++ intros _. split; [auto|]. split; [lia|]. split; [auto|]. split; [lra|]. split; [auto|].
              exists (- u). rewrite W3, W4. simpl. split; auto. rewrite rdot_opp. fold cx. lra.
           ++ intros i Hi Hsi. destruct (Nat.eq_dec i k) as [->|Hne].
              ** rewrite El, Eu. fold cx. simpl. repeat split; intros; lra.
              ** apply Hold; auto; try lra; lia.
        -- split; auto.
           ++ intros HH. destruct (I3 HH) as (K1 & K2 & K3). split; [auto|]. split; [lia|]. auto.
           ++ intros i Hi Hsi. destruct (Nat.eq_dec i k) as [->|Hne].
              ** rewrite El, Eu. fold cx. simpl. repeat split; intros; lra.
              ** apply Hold; auto; try lra; lia.
      * split; auto.
        -- intros HH. destruct (I3 HH) as (K1 & K2 & K3). split; [auto|]. split; [lia|]. auto.
        -- intros i Hi Hsi. destruct (Nat.eq_dec i k) as [->|Hne].
           ** rewrite El, Eu. fold cx. simpl. repeat split; intros; lra.
           ** apply Hold; auto; try lra; lia.
  - destruct (cup pb k) as [u|] eqn:Eu.
    + destruct (Rltb_spec (u - cx) (fst acc)) as [Hlt2|Hge2].
      * split; simpl; [lra|congruence| |].
        -- intros _. split; [auto|]. split; [lia|]. split; [auto|]. split; [lra|]. split; [auto|].
           exists (- u). rewrite W3, W4. simpl. split; auto. rewrite rdot_opp. fold cx. lra.
        -- intros i Hi Hsi. destruct (Nat.eq_dec i k) as [->|Hne].
           ** rewrite El, Eu. fold cx. simpl. repeat split; intros; auto; lra.
           ** apply Hold; auto; try lra; lia.
      * split; auto.
        -- intros HH. destruct (I3 HH) as (K1 & K2 & K3). split; [auto|]. split; [lia|]. auto.
        -- intros i Hi Hsi. destruct (Nat.eq_dec i k) as [->|Hne].
           ** rewrite El, Eu. fold cx. simpl. repeat split; intros; auto; lra.
           ** apply Hold; auto; try lra; lia.
    + split; auto.
      * intros HH. destruct (I3 HH) as (K1 & K2 & K3). split; [auto|]. split; [lia|]. auto.
      * intros i Hi Hsi. destruct (Nat.eq_dec i k) as [->|Hne].
        ** rewrite El, Eu. fold cx. simpl. repeat split; intros; auto; lra.
        ** apply Hold; auto; try lra; lia.
Qed.

Lemma sel_inv_skip pb A x k acc : stt A k <> INACTIVE -> sel_inv pb A x k acc -> sel_inv pb A x (S k) acc.
Proof.
  intros Hk [I1 I2 I3 I4]. split; auto.
  - intros HH. destruct (I3 HH) as (K1 & K2 & K3). split; [auto|]. split; [lia|]. auto.
  - intros i Hi Hsi. apply I4; auto. destruct (Nat.eq_dec i k); [congruence|lia].
Qed.

Lemma sel_cstr_spec pb s x acc k : shape pb s -> (k <= nc pb)%nat ->
  sel_inv pb (s_A s) x 0 acc ->
  exists acc', sel_cstr pb (s_A s) x k acc = Ok acc' /\ sel_inv pb (s_A s) x k acc'.
Proof.
  intros Hs. induction k as [|k IH]; intros Hk H0; [exists acc; auto|].
  destruct IH as (acc1 & E1 & H1); [lia|auto|].
  cbn [sel_cstr]. rewrite E1. cbn [bind]. unfold isActive.
  rewrite (as_stat_ok pb) by (auto; unfold ncb; lia). cbn [bind].
  eexists. split; [reflexivity|].
  destruct (status_eqb_spec (stt (s_A s) k) INACTIVE) as [E|E]; simpl.
  - assert (Hc : (k <? nc pb)%nat = true) by (apply Nat.ltb_lt; lia).
    pose proof (proj1 (sizes_ok_spec pb) (sh_sizes _ _ Hs)) as (_ & _ & Hrows & _).
    rewrite Hrows. rops.
    replace (p_bl pb k) with (clo pb k) by (unfold clo; rewrite Hc; auto).
    replace (p_bu pb k) with (cup pb k) by (unfold cup; rewrite Hc; auto).
    replace (fun t : nat => p_C pb t k) with (cvec pb k) by (unfold cvec; rewrite Hc; auto).
    apply sel_one_spec; auto; [unfold ncb; lia|rewrite Hc; auto].
  - apply sel_inv_skip; auto.
Qed.

Lemma sel_bnd_spec pb s x acc k : shape pb s -> (k <= nb pb)%nat ->
  sel_inv pb (s_A s) x (nc pb) acc ->
  exists acc', sel_bnd pb (s_A s) x k acc = Ok acc' /\ sel_inv pb (s_A s) x (nc pb + k) acc'.
Proof.
  intros Hs. induction k as [|k IH]; intros Hk H0; [exists acc; rewrite Nat.add_0_r; auto|].
  destruct IH as (acc1 & E1 & H1); [lia|auto|].
  cbn [sel_bnd]. rewrite E1. cbn [bind]. unfold isActiveBnd.
  rewrite (as_statBnd_ok pb) by (auto; lia). cbn [bind].
  eexists. split; [reflexivity|]. rewrite Nat.add_succ_r.
  destruct (status_eqb_spec (stt (s_A s) (nc pb + k)) INACTIVE) as [E|E]; simpl.
  - assert (Hc : (nc pb + k <? nc pb)%nat = false) by (apply Nat.ltb_ge; lia).
    pose proof (sizes_nb _ (sh_sizes _ _ Hs)) as Hnb.
    rewrite (sh_nc _ _ Hs).
    replace (p_xl pb k) with (clo pb (nc pb + k)) by (unfold clo; rewrite Hc; f_equal; lia).
    replace (p_xu pb k) with (cup pb (nc pb + k)) by (unfold cup; rewrite Hc; f_equal; lia).
    replace (x k) with (rdot (nv pb) (cvec pb (nc pb + k)) x).
    2:{ unfold cvec. rewrite Hc. rewrite dot_delta by lia. f_equal. lia. }
    apply sel_one_spec; auto; [unfold ncb; lia|rewrite Hc; auto].
  - apply sel_inv_skip; auto.
Qed.

Lemma selectViolated_spec pb s : shape pb s ->
  exists sc smin, selectViolated pb s = Ok sc /\ sel_inv pb (s_A s) (xof s) (ncb pb) (smin, sc).
Proof.
  intros Hs. unfold selectViolated. rewrite (sh_n _ _ Hs).
  rewrite getV_ok by apply Hs. cbn [bind]. fold (xof s).
  rewrite (sh_nc _ _ Hs), (sh_nb _ _ Hs).
  destruct (sel_cstr_spec pb s (xof s) (zero Rops, SC 0 INACTIVE) (nc pb) Hs) as (acc & E & H); auto.
  { split; simpl; [lra|auto|congruence|]. intros; lia. }
  rewrite E. cbn [bind].
  destruct (sel_bnd_spec pb s (xof s) acc (nb pb) Hs) as (acc2 & E2 & H2); auto.
  rewrite E2. cbn [bind]. exists (snd acc2), (fst acc2). split; auto.
  destruct acc2. auto.
Qed.

(** ** Step length (ratio test) *)
(** Row [k] takes part in the ratio test *)
Definition cand (A : aset) (r : rvec) (k : nat) : Prop := isEq (stt A k) = false /\ 0 < r k.

Record len1_ok (A : aset) (u r : rvec) (big : R) (q : nat) (t1 : R) (l : nat) : Prop := {
  l1_le : t1 <= big;
  l1_min : forall k, (k < q)%nat -> cand A r k -> t1 <= u k / r k;
  l1_att : t1 = big \/ ((l < q)%nat /\ cand A r l /\ t1 = u l / r l)
}.

Lemma len1_spec pb s (u r : rvec) big q : shape pb s -> (q <= ncb pb)%nat ->
  exists t1 l, @len1 Rops (s_A s) u r big q = Ok (t1, l) /\ len1_ok (s_A s) u r big q t1 l.
Proof.
  intros Hs. induction q as [|q IH]; intros Hq.
  - exists big, 0%nat. split; auto. split; intros; try lia; auto. lra.
  - destruct IH as (t1 & l & E & [H1 H2 H3]); [lia|].
    cbn [len1]. rewrite E. cbn [bind]. rewrite (as_stat_ok pb) by (auto; lia). cbn [bind]. rops. cbn [fst].
    assert (Hkeep : ~ cand (s_A s) r q \/ t1 <= u q / r q -> len1_ok (s_A s) u r big (S q) t1 l).
    { intros Hc. split; auto.
      - intros k Hk Hck. destruct (Nat.eq_dec k q) as [->|]; [tauto|]. apply H2; auto; lia.
      - destruct H3 as [H3|(H3 & H4)]; [left; auto|right; split; [lia|auto]]. }
    destruct (isEq (stt (s_A s) q)) eqn:Eq; simpl.
    { exists t1, l. split; auto. apply Hkeep. left. unfold cand. intros []; congruence. }
    destruct (Rltb_spec 0 (r q)) as [Hr|Hr].
    2:{ exists t1, l. split; auto. apply Hkeep. left. unfold cand. intros []; lra. }
    destruct (Rltb_spec (u q / r q) t1) as [Ht|Ht].
    + exists (u q / r q), q. split; auto. split.
      * lra.
      * intros k Hk Hck. destruct (Nat.eq_dec k q) as [->|]; [lra|].
        specialize (H2 k ltac:(lia) Hck). lra.
      * right. split; [lia|]. split; [split; auto|auto].
    + exists t1, l. split; auto. apply Hkeep. right. lra.
Qed.

(** The full step length: distance to the constraint along z *)
Lemma len2_spec pb (x z : rvec) sc b : sizes_ok pb = true -> sel_valid pb sc ->
  isEq (sc_st sc) = false -> scb pb sc = Some b -> rdot (nv pb) (scn pb sc) z <> 0 ->
  exists t2, @len2 Rops pb (nv pb) x z sc = Ok t2 /\
     t2 = (b - rdot (nv pb) (scn pb sc) x) / rdot (nv pb) (scn pb sc) z.
Proof.
  intros Hs Hv HE Hb Hnz. destruct Hv as (Hi & HK). apply kind_lt in HK. apply sizes_nb in Hs. unfold ncb in Hi.
  unfold len2. unfold scn, scb, nsign, nrhs, clo, cup, cvec in *. change (p_Ccols pb) with (nc pb).
  destruct (sc_st sc); try contradiction; try discriminate;
    (destruct (Nat.ltb_spec (sc_idx sc) (nc pb)); try lia); rops.
  - rewrite Hb. eexists; split; [reflexivity|]. auto.
  - destruct (p_bu pb (sc_idx sc)) as [bu|]; [|discriminate]. simpl in Hb. injection Hb as <-.
    eexists; split; [reflexivity|]. rewrite rdot_opp in Hnz. rewrite !rdot_opp. field. lra.
  - destruct (Nat.ltb_spec (sc_idx sc - nc pb) (nv pb)); [|lia]. simpl. rewrite Hb.
    eexists; split; [reflexivity|]. rewrite !dot_delta by auto. auto.
  - destruct (Nat.ltb_spec (sc_idx sc - nc pb) (nv pb)); [|lia]. simpl.
    destruct (p_xu pb (sc_idx sc - nc pb)) as [bu|]; [|discriminate]. simpl in Hb. injection Hb as <-.
    eexists; split; [reflexivity|]. rewrite rdot_opp in Hnz. rewrite !rdot_opp.
    rewrite dot_delta in Hnz by auto. rewrite !dot_delta by auto. field. lra.
Qed.

Lemma norm_pos_nz n (z : rvec) c : 0 <= c -> c < @norm Rops n z -> exists i, (i < n)%nat /\ z i <> 0.
Proof.
  intros Hc Hz. unfold norm in Hz. rops.
  assert (D : forall m f, 0 < rsum m f -> exists t, (t < m)%nat /\ f t <> 0).
  { induction m as [|m IH]; intros f Hf; [rewrite sum_0 in Hf; lra|].
    rewrite sum_S in Hf. destruct (Req_EM_T (f m) 0) as [E|E].
    - destruct (IH f) as (t & Ht & Hft); [lra|]. exists t. auto.
    - exists m. auto. }
  destruct (D n (fun i => z i * z i)) as (t & Ht & Hft).
  - destruct (Rle_lt_dec (rsum n (fun i => z i * z i)) 0) as [H|H]; auto.
    exfalso. assert (sqrt (rdot n z z) = 0); [|lra]. apply sqrt_neg_0. auto.
  - exists t. split; auto. nra.
Qed.
Lemma eps_pos : 0 < / 10 ^ 14.
Proof. apply Rinv_0_lt_compat, pow_lt. lra. Qed.

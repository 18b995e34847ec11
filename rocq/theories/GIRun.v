(** Runs of the loop: reachability, invariants along a run, outcomes. *)
From Coq Require Import List Arith ZArith Lia Bool Reals Lra.
From Verif Require Import Base ActiveSet ActiveSetProofs Num Solver LinAlg QRUpdate QPSpec GIMath GIBase GIInv GIDual.
Import ListNotations.
Local Open Scope R_scope.

(** [++it_] at the end of an iteration *)
Definition bump (l : rlst) : rlst := L (set_it (l_s l) (S (s_it (l_s l)))) (l_skip l) (l_sc l).

(** [reach pb o k l l']: [k] complete iterations lead from [l] to [l'] *)
Inductive reach (pb : rproblem) (o : ropt) : nat -> rlst -> rlst -> Prop :=
| reach_0 l : reach pb o 0 l l
| reach_S k l l1 l2 : reach pb o k l l1 -> iter pb o l1 = Ok (Continue l2) -> reach pb o (S k) l (bump l2).

Lemma reach_head pb o k : forall l l1 l2, iter pb o l = Ok (Continue l1) -> reach pb o k (bump l1) l2 -> reach pb o (S k) l l2.
Proof.
  intros l l1 l2 E H. remember (bump l1) as b eqn:Eb. revert l1 E Eb.
  induction H as [b|k b l3 l4 H IH E4]; intros l1 E Eb; subst.
  - econstructor; [constructor|auto].
  - econstructor; [eapply IH; eauto|auto].
Qed.

Lemma loop_reach pb o fuel : forall l st s, loop pb o fuel l = Ok (st, s) ->
  (st = MAX_ITER_REACHED /\ exists l', reach pb o fuel l l' /\ s = l_s l') \/
  (exists k l', (k < fuel)%nat /\ reach pb o k l l' /\ iter pb o l' = Ok (Stop st s)).
Proof.
  induction fuel as [|f IH]; intros l st s E; cbn [loop] in E.
  - injection E as <- <-. left. split; auto. exists l. split; auto. constructor.
  - apply bind_ok in E as (r & Er & E). destruct r as [l'|st' s'].
    + destruct (IH _ _ _ E) as [(-> & l2 & H1 & H2)|(k & l2 & H1 & H2 & H3)].
      * left. split; auto. exists l2. split; auto. eapply reach_head; eauto.
      * right. exists (S k), l2. split; [lia|]. split; auto. eapply reach_head; eauto.
    + injection E as <- <-. right. exists 0%nat, l. split; [lia|]. split; [constructor|auto].
Qed.

Lemma linv_bump pb l : linv pb l -> linv pb (bump l).
Proof.
  intros [H1 H2]. split; simpl.
  - apply pinv_set_it. auto.
  - intros E. apply selected_set_it. auto.
Qed.

Lemma reach_linv pb o k l l' : linv pb l -> reach pb o k l l' -> linv pb l'.
Proof.
  intros HL H. induction H as [l|k l l1 l2 H IH E]; auto.
  destruct (iter_spec pb o l1 (IH HL)) as (out & E' & HC).
  assert (out = Continue l2) by congruence. subst out.
  apply iter_linv in HC; auto. apply linv_bump. auto.
Qed.

(** The loop always returns from a state satisfying the invariant *)
Lemma loop_total pb o fuel : forall l, linv pb l -> exists st s, loop pb o fuel l = Ok (st, s) /\
  (st = MAX_ITER_REACHED \/ st = SUCCESS \/ st = INFEASIBLE) /\ shape pb s.
Proof.
  induction fuel as [|f IH]; intros l HL; cbn [loop].
  - eexists _, _. split; [reflexivity|]. split; auto. apply HL.
  - destruct (iter_spec pb o l HL) as (out & E & HC). rewrite E. cbn [bind].
    apply iter_linv in HC; auto. destruct out as [l'|st s].
    + apply (IH (bump l')). apply linv_bump. auto.
    + eexists _, _. split; [reflexivity|]. destruct HC as [[-> ->]|[-> HS]]; auto. split; auto. apply HL.
Qed.

(** Number of iterations *)
Lemma iter_it pb o l out : linv pb l -> iter pb o l = Ok out ->
  match out with Continue l' => s_it (l_s l') = s_it (l_s l) | Stop _ s => s_it s = s_it (l_s l) end.
Proof.
  intros HL E. destruct (iter_spec pb o l HL) as (out' & E' & HC). assert (out' = out) by congruence. subst out'.
  destruct HC as [smin sc Hsk HI Hst|sc b s1 t1 i out Es Ec Hsel Hb Hs HS HL1 HC]; auto.
  assert (Ee : s_it (enter l sc) = s_it (l_s l)) by (unfold enter; destruct (l_skip l); auto).
  destruct HC as [Ht1 Hbl|s2 s' Ht1 Hbl Hl M Hrm|s2 s' Hz Ht2 Ht12 M Had|s2 s' Hz Ht2 Ht12 Hl M Hrm]; simpl; rewrite <- Ee.
  - apply HS.
  - rewrite (rm_it _ _ _ _ Hrm). apply M.
  - rewrite (ad_it _ _ _ _ Had). apply M.
  - rewrite (rm_it _ _ _ _ Hrm). apply M.
Qed.
Lemma reach_it pb o k l l' : linv pb l -> reach pb o k l l' -> s_it (l_s l') = (k + s_it (l_s l))%nat.
Proof.
  intros HL H. induction H as [l|k l l1 l2 H IH E]; auto.
  pose proof (iter_it _ _ _ _ (reach_linv _ _ _ _ _ HL H) E) as Ei. simpl in Ei |- *. rewrite Ei, IH; auto.
Qed.

(** ** Success: primal feasibility *)
Definition ordered (pb : rproblem) : Prop :=
  forall i l u, (i < ncb pb)%nat -> clo pb i = Some l -> cup pb i = Some u -> l <= u.

Lemma tight_value pb s k : pinv pb s -> (k < nact (s_A s))%nat ->
  let i := act (s_A s) k in let v := rdot (nv pb) (cvec pb i) (xof s) in
  match stt (s_A s) i with
  | UPPER | UPPER_BOUND => cup pb i = Some v
  | LOWER | LOWER_BOUND => clo pb i = Some v
  | EQUALITY | FIXED => clo pb i = Some v /\ cup pb i = Some v
  | INACTIVE => False
  end.
Proof.
  intros HP Hk i v. pose proof (pi_tight _ _ HP k Hk) as HT. unfold Bact, Nact in HT. fold i in HT.
  destruct (act_props pb s k (pi_shape _ _ HP) Hk) as (Hi & Hst & _). fold i in Hi, Hst.
  pose proof (pi_eqst _ _ HP i Hi) as HE.
  destruct (stt (s_A s) i); simpl in *; auto; try congruence.
  - fold v in HT. destruct (cup pb i) as [u|]; [|discriminate]. simpl in HT. injection HT as HT.
    rewrite rdot_opp in HT. fold v in HT. f_equal. lra.
  - fold v in HT. split; auto. destruct HE as (b & E1 & E2); auto. rewrite HT in E1. congruence.
  - fold v in HT. destruct (cup pb i) as [u|]; [|discriminate]. simpl in HT. injection HT as HT.
    rewrite rdot_opp in HT. fold v in HT. f_equal. lra.
  - fold v in HT. split; auto. destruct HE as (b & E1 & E2); auto. rewrite HT in E1. congruence.
Qed.

Lemma success_feasible pb o l : linv pb l -> ordered pb -> iter_case pb o l (Stop SUCCESS (l_s l)) ->
  feasible pb (xof (l_s l)).
Proof.
  intros [HP _] Hord HC. remember (Stop SUCCESS (l_s l)) as out eqn:Eo.
  destruct HC as [smin sc Hsk HI Hst|sc b s1 t1 i out' Es Ec Hsel Hb Hs HS HL1 HC].
  2:{ subst out'. inversion HC. }
  apply feasible_iff; [apply sizes_nb, HP|]. intros i Hi. set (v := rdot (nv pb) (cvec pb i) (xof (l_s l))).
  destruct (status_eqb_spec (stt (s_A (l_s l)) i) INACTIVE) as [E|E].
  - destruct (si_all _ _ _ _ _ HI i Hi E) as (K1 & _ & K3). pose proof (si_none _ _ _ _ _ HI Hst) as E0. simpl in *. fold v in K1, K3.
    specialize (K3 E0). split.
    + unfold above_lo, slack_ge in *. destruct (clo pb i); auto. lra.
    + unfold below_up, slack_le in *. destruct (cup pb i); auto. lra.
  - destruct (act_surj pb (l_s l) i (pi_shape _ _ HP) E) as (k & Hk & Ek).
    pose proof (tight_value pb (l_s l) k HP Hk) as HT. rewrite Ek in HT. simpl in HT. fold v in HT.
    unfold above_lo, below_up. specialize (Hord i).
    destruct (stt (s_A (l_s l)) i); try contradiction; try congruence;
      try (destruct HT as [-> ->]; split; lra);
      rewrite HT in *; split; try lra; [destruct (cup pb i)|destruct (clo pb i)|destruct (cup pb i)|destruct (clo pb i)]; auto;
      apply Hord; auto.
Qed.

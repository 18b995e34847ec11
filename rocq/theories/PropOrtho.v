(** C23 and C35: orthonormal sequences and single-segment vectors.

    Specification: the usual dense matrices.  A sequence of calls stands for the
    product, in the order of the calls, of the rotations and reflectors given to
    it, embedded in the identity. *)
From Coq Require Import List Arith ZArith Lia Bool Reals Lra FunctionalExtensionality.
From Verif Require Import Base Num Solver LinAlg GIBase Ortho OrthoProofs.
Import ListNotations.
Local Open Scope R_scope.

(** ** Dense matrices *)
Definition unit_ (i j : nat) : R := if (i =? j)%nat then 1 else 0.
(** Eigen's JacobiRotation(c, s) acting on the coordinates p and p+1 *)
Definition rotation (p : nat) (c s : R) (i j : nat) : R :=
  if (i =? p)%nat then (if (j =? p)%nat then c else if (j =? p + 1)%nat then s else 0)
  else if (i =? p + 1)%nat then (if (j =? p)%nat then - s else if (j =? p + 1)%nat then c else 0)
  else unit_ i j.
(** the vector (0,..,0,1,essential,0,..,0) with the 1 in position p *)
Definition hvec (p esz : nat) (ess : nat -> R) (i : nat) : R :=
  if (i =? p)%nat then 1 else if (p <? i)%nat && (i <=? p + esz)%nat then ess (i - p - 1)%nat else 0.
(** I - tau v v^T *)
Definition reflector (p esz : nat) (ess : nat -> R) (tau : R) (i j : nat) : R := unit_ i j - tau * hvec p esz ess i * hvec p esz ess j.
Definition factor (c : cmd) : nat -> nat -> R :=
  match c with
  | Prepare _ _ _ => unit_
  | AddGivens p g => rotation p (gc g) (gs g)
  | AddHouseholder p esz ess tau => reflector p esz ess tau
  end.
Definition mprod (N : nat) (A B : nat -> nat -> R) (i j : nat) : R := rsum N (fun k => A i k * B k j).
Definition mvec (N : nat) (A : nat -> nat -> R) (v : nat -> R) (i : nat) : R := rsum N (fun j => A i j * v j).
Definition mt (A : nat -> nat -> R) (i j : nat) : R := A j i.
Fixpoint product (N : nat) (cs : list cmd) : nat -> nat -> R :=
  match cs with [] => unit_ | c :: cs' => mprod N (factor c) (product N cs') end.
(** elements are prepared for at least one coordinate *)
Definition nonempty (c : cmd) : Prop := match c with Prepare _ n _ => (0 < n)%nat | _ => True end.
Definition orthogonal (N : nat) (A : nat -> nat -> R) : Prop :=
  forall i j, (i < N)%nat -> (j < N)%nat -> mprod N (mt A) A i j = unit_ i j /\ mprod N A (mt A) i j = unit_ i j.

(** ** Dense action *)
Lemma unit_mvec N (v : rvec) i : (i < N)%nat -> mvec N unit_ v i = v i.
Proof. intros Hi. unfold mvec, unit_. rewrite (sum_ext N _ (fun j => if (j =? i)%nat then v j else 0)); [apply sum_delta; auto|]. intros j Hj. rewrite (Nat.eqb_sym i j). destruct (j =? i)%nat; ring. Qed.
Lemma hvec_dot N p esz ess (v : rvec) : (p + esz < N)%nat -> rsum N (fun j => hvec p esz ess j * v j) = v p + rsum esz (fun r => ess r * v (S p + r)%nat).
Proof.
  intros H. rewrite (sum_ext N _ (fun i => if (i =? p)%nat then hvec p esz ess i * v i else if (p <? i)%nat && (i <=? p + esz)%nat then hvec p esz ess i * v i else 0)).
  - rewrite (sum_seg N p esz (fun i => hvec p esz ess i * v i)) by auto. f_equal; [unfold hvec; rewrite Nat.eqb_refl; ring|]. apply sum_ext. intros r Hr. unfold hvec.
    destruct (Nat.eqb_spec (S p + r) p); [lia|]. rewrite (proj2 (Nat.ltb_lt _ _)) by lia. rewrite (proj2 (Nat.leb_le _ _)) by lia. cbn [andb]. do 2 f_equal. lia.
  - intros i Hi. unfold hvec. destruct (i =? p)%nat; [reflexivity|]. destruct ((p <? i)%nat && _); ring.
Qed.
Lemma factor_mvec N c (v : rvec) i : c_in N c -> (i < N)%nat -> fact c v i = mvec N (factor c) v i.
Proof.
  intros Hc Hi. destruct c as [ty n k|p g|p esz ess tau]; cbn [c_in factor fact] in *.
  - symmetry. apply unit_mvec. auto.
  - unfold mvec, rotation. replace (p + 1)%nat with (S p) by lia. destruct (Nat.eqb_spec i p) as [->|H1].
    + rewrite (sum_ext N _ (fun j => (if (j =? p)%nat then gc g * v j else 0) + (if (j =? S p)%nat then gs g * v j else 0))).
      * rewrite sum_plus, !sum_delta by lia. reflexivity.
      * intros j Hj. destruct (Nat.eqb_spec j p) as [->|]; [destruct (Nat.eqb_spec p (S p)); [lia|ring]|]. destruct (j =? S p)%nat; ring.
    + destruct (Nat.eqb_spec i (S p)) as [->|H2].
      * rewrite (sum_ext N _ (fun j => (if (j =? p)%nat then - gs g * v j else 0) + (if (j =? S p)%nat then gc g * v j else 0))).
        -- rewrite sum_plus, !sum_delta by lia. reflexivity.
        -- intros j Hj. destruct (Nat.eqb_spec j p) as [->|]; [destruct (Nat.eqb_spec p (S p)); [lia|ring]|]. destruct (j =? S p)%nat; ring.
      * symmetry. apply unit_mvec. auto.
  - unfold mvec, reflector. rewrite (sum_ext N _ (fun j => unit_ i j * v j - tau * hvec p esz ess i * (hvec p esz ess j * v j))) by (intros; ring).
    rewrite sum_minus, sum_scal, hvec_dot by auto. fold (mvec N unit_ v i). rewrite unit_mvec by auto. cbv zeta. unfold hvec. destruct (Nat.eqb_spec i p) as [->|]; [ring|]. destruct ((p <? i)%nat && _); ring.
Qed.
Lemma mvec_ext N A (v w : rvec) i : (forall j, (j < N)%nat -> v j = w j) -> mvec N A v i = mvec N A w i.
Proof. intros H. apply sum_ext. intros j Hj. rewrite H by auto. reflexivity. Qed.
Lemma mvec_assoc N A B (v : rvec) i : mvec N (mprod N A B) v i = mvec N A (mvec N B v) i.
Proof.
  unfold mvec, mprod. rewrite (sum_ext N _ (fun j => rsum N (fun k => A i k * B k j * v j))) by (intros; rewrite sum_scal_r; reflexivity).
  rewrite sum_swap. apply sum_ext. intros k Hk. rewrite <- sum_scal. apply sum_ext. intros; ring.
Qed.
Lemma facts_mvec N cs : Forall (c_in N) cs -> forall (v : rvec) i, (i < N)%nat -> facts cs v i = mvec N (product N cs) v i.
Proof.
  induction 1 as [|c cs Hc _ IH]; intros v i Hi; cbn [facts product]; [symmetry; apply unit_mvec; auto|].
  rewrite (factor_mvec N) by auto. rewrite mvec_assoc. apply mvec_ext. intros; apply IH; auto.
Qed.
(** two vectors with the same products with everything *)
Definition basis (k : nat) : rvec := fun i => if (i =? k)%nat then 1 else 0.
Lemma dot_basis N v k : (k < N)%nat -> rdot N v (basis k) = v k.
Proof. intros Hk. rewrite dot_def. unfold basis. rewrite (sum_ext N _ (fun i => if (i =? k)%nat then v i else 0)); [apply sum_delta; auto|]. intros i Hi. destruct (i =? k)%nat; ring. Qed.
Lemma mvec_basis N A k i : (k < N)%nat -> mvec N A (basis k) i = A i k.
Proof. intros Hk. unfold mvec, basis. rewrite (sum_ext N _ (fun j => if (j =? k)%nat then A i j else 0)); [apply sum_delta; auto|]. intros j Hj. destruct (j =? k)%nat; ring. Qed.
Lemma facts_t_mvec N cs : Forall (c_in N) cs -> forall (v : rvec) i, (i < N)%nat -> facts_t cs v i = mvec N (mt (product N cs)) v i.
Proof.
  intros Hc v i Hi. rewrite <- (dot_basis N (facts_t cs v) i Hi), dot_comm, <- facts_adjoint by auto. rewrite dot_def. unfold mvec, mt. apply sum_ext. intros j Hj.
  rewrite (facts_mvec N) by auto. rewrite mvec_basis by auto. reflexivity.
Qed.

(** ** When the products are defined *)
Lemma app_placed N l : forall v w, Forall (fun p => (0 < e_n (snd p))%nat) l -> os_app N l v = Ok w -> Forall (placed N) l.
Proof.
  induction l as [|[st e] l IH]; intros v w Hp H; [constructor|]. inversion Hp as [|? ? Hp1 Hp2]; subst. cbn [fst snd] in *. cbn [os_app] in H.
  apply bind_inv in H as (v1 & H1 & H2). constructor; [|apply (IH v1 w); auto]. unfold on_segment in H1. apply guard_inv in H1 as [G1 H1]. apply Nat.leb_le in G1. apply bind_inv in H1 as (w1 & H3 & _).
  split; cbn [fst snd]; [exact G1|]. intros Ty. unfold elem_apply in H3. rewrite Ty in H3. apply guard_inv in H3 as [_ H3]. apply bind_inv in H3 as (c & _ & H3). apply bind_inv in H3 as (s & _ & H3).
  apply guard_inv in H3 as [G2 _]. apply orb_true_iff in G2 as [G2|G2]; [apply Nat.eqb_eq in G2|apply Nat.ltb_lt in G2]; lia.
Qed.
Lemma app_t_placed N l : forall v w, Forall (fun p => (0 < e_n (snd p))%nat) l -> os_app_t N l v = Ok w -> Forall (placed N) l.
Proof.
  induction l as [|[st e] l IH]; intros v w Hp H; [constructor|]. inversion Hp as [|? ? Hp1 Hp2]; subst. cbn [fst snd] in *. cbn [os_app_t] in H.
  apply bind_inv in H as (v1 & H1 & H2). constructor; [|apply (IH v1 w); auto]. unfold on_segment in H1. apply guard_inv in H1 as [G1 H1]. apply Nat.leb_le in G1. apply bind_inv in H1 as (w1 & H3 & _).
  split; cbn [fst snd]; [exact G1|]. intros Ty. unfold elem_apply_t in H3. rewrite Ty in H3. apply guard_inv in H3 as [_ H3]. apply bind_inv in H3 as (c & _ & H3). apply bind_inv in H3 as (s & _ & H3).
  apply guard_inv in H3 as [G2 _]. apply orb_true_iff in G2 as [G2|G2]; [apply Nat.leb_le in G2|apply Nat.ltb_lt in G2]; lia.
Qed.
Lemma exec1_pos junk q c q' : exec1 junk q c = Ok q' -> nonempty c -> Forall (fun p => (0 < e_n (snd p))%nat) (q_seq q) -> Forall (fun p => (0 < e_n (snd p))%nat) (q_seq q').
Proof.
  intros H Hc Hp. destruct c as [ty n k|p g|p esz ess tau]; cbn [exec1 nonempty] in *.
  - unfold os_prepare in H. apply bind_inv in H as (e & He & H). injection H as <-. cbn [q_seq]. constructor; [|exact Hp]. cbn [snd]. unfold elem_new in He. destruct ty; try discriminate; injection He as <-; cbn [e_n]; exact Hc.
  - unfold os_addG in H. apply bind_inv in H as ([[st e] rest] & Hb & H). apply bind_inv in H as (e' & He & H). injection H as <-. cbn [q_seq]. unfold os_back in Hb. destruct (q_seq q) as [|[st0 e0] l]; [discriminate|].
    inversion Hp as [|? ? Hp1 Hp2]; subst. cbn [snd] in Hp1. apply guard_inv in Hb as [_ Hb].
    assert (Heq : e = e0 /\ rest = l). { destruct (e_size e0 =? 0)%nat; [injection Hb as <- <- <-; auto|]. apply guard_inv in Hb as [_ Hb]. injection Hb as <- <- <-; auto. }
    destruct Heq as [-> ->]. constructor; [|exact Hp2]. cbn [snd]. unfold elem_addG in He. apply guard_inv in He as [_ He]. apply bind_inv in He as (c & _ & He). apply bind_inv in He as (s & _ & He). injection He as <-. exact Hp1.
  - unfold os_addH in H. apply bind_inv in H as ([[st e] rest] & Hb & H). apply bind_inv in H as (e' & He & H). injection H as <-. cbn [q_seq]. unfold os_back in Hb. destruct (q_seq q) as [|[st0 e0] l]; [discriminate|].
    inversion Hp as [|? ? Hp1 Hp2]; subst. cbn [snd] in Hp1. apply guard_inv in Hb as [_ Hb].
    assert (Heq : e = e0 /\ rest = l). { destruct (e_size e0 =? 0)%nat; [injection Hb as <- <- <-; auto|]. apply guard_inv in Hb as [_ Hb]. injection Hb as <- <- <-; auto. }
    destruct Heq as [-> ->]. constructor; [|exact Hp2]. cbn [snd]. unfold elem_addH in He. apply guard_inv in He as [_ He]. apply guard_inv in He as [_ He]. apply bind_inv in He as (c & _ & He). apply bind_inv in He as (s & _ & He). injection He as <-. exact Hp1.
Qed.
Lemma exec_pos junk cs : forall q q', exec junk q cs = Ok q' -> Forall nonempty cs -> Forall (fun p => (0 < e_n (snd p))%nat) (q_seq q) -> Forall (fun p => (0 < e_n (snd p))%nat) (q_seq q').
Proof.
  induction cs as [|c cs IH]; intros q q' H Hc Hp; cbn [exec] in H; [injection H as <-; exact Hp|]. apply bind_inv in H as (q1 & H1 & H). inversion Hc; subst.
  apply (IH q1 q'); auto. apply (exec1_pos junk q c q1); auto.
Qed.
Lemma history_fit junk N cs q v w : exec junk (os_new N) cs = Ok q -> Forall nonempty cs -> (os_apply q N v = Ok w \/ os_apply_t q N v = Ok w) -> segments_fit q.
Proof.
  intros H Hc Hv. assert (Hp := exec_pos junk cs _ _ H Hc (Forall_nil _)). apply fit_placed. destruct (exec_steps junk cs _ _ (new_wf N) H) as (_ & Hn & _). unfold os_placed. destruct Hv as [Hv|Hv].
  - unfold os_apply in Hv. apply guard_inv in Hv as [_ Hv]. apply (app_placed _ _ v w); auto.
  - unfold os_apply_t in Hv. apply guard_inv in Hv as [_ Hv]. apply Forall_rev in Hp. apply (app_t_placed _ _ v w) in Hv; auto. apply Forall_rev in Hv. rewrite rev_involutive in Hv. exact Hv.
Qed.

(** ** C23 *)
(** For every sequence of calls accepted on an empty sequence of size N: applyToTheLeft and
    applyTransposeToTheLeft, when they accept their argument, return the product of the given rotations and
    reflectors, in the order of the calls, times the vector (resp. its transpose times the vector). *)
Theorem C23_apply junk N cs q v w : exec junk (os_new N) cs = Ok q -> Forall nonempty cs -> os_apply q N v = Ok w ->
  forall i, (i < N)%nat -> w i = mvec N (product N cs) v i.
Proof.
  intros H Hc Hv i Hi. destruct (history_apply junk N cs q H (history_fit junk N cs q v w H Hc (or_introl Hv))) as (_ & HC & HA & _). rewrite HA in Hv. injection Hv as <-. apply facts_mvec; auto.
Qed.
Theorem C23_apply_transpose junk N cs q v w : exec junk (os_new N) cs = Ok q -> Forall nonempty cs -> os_apply_t q N v = Ok w ->
  forall i, (i < N)%nat -> w i = mvec N (mt (product N cs)) v i.
Proof.
  intros H Hc Hv i Hi. destruct (history_apply junk N cs q H (history_fit junk N cs q v w H Hc (or_intror Hv))) as (_ & HC & _ & HA). rewrite HA in Hv. injection Hv as <-. apply facts_t_mvec; auto.
Qed.
(** The two products and their single-segment variants are defined together, for all the vectors of size N (and
    only those), independently of their values; the variants return exactly what the dense ones return on
    the expanded vector, whatever the output vector held before. *)
Theorem C23_segment_variants junk N cs q : exec junk (os_new N) cs = Ok q -> Forall nonempty cs ->
  (exists v w, os_apply q N v = Ok w) ->
  (forall v, exists w, os_apply q N v = Ok w) /\ (forall v, exists w, os_apply_t q N v = Ok w) /\
  (forall M v, M <> N -> os_apply q M v = UB /\ os_apply_t q M v = UB) /\
  (forall len x start z out, snz_new len x start N = Ok z ->
     let dense := fun i => if (start <=? i)%nat && (i <? start + len)%nat then x (i - start)%nat else 0 in
     (forall w w', os_apply q N dense = Ok w -> os_apply_nz q N out z = Ok w' -> forall i, (i < N)%nat -> w' i = w i) /\
     (forall w w', os_apply_t q N dense = Ok w -> os_apply_t_nz q N out z = Ok w' -> forall i, (i < N)%nat -> w' i = w i) /\
     (exists w, os_apply_nz q N out z = Ok w) /\ (exists w, os_apply_t_nz q N out z = Ok w)).
Proof.
  intros H Hc (v0 & w0 & Hv0). pose proof (history_fit junk N cs q v0 w0 H Hc (or_introl Hv0)) as HF. destruct (history_apply junk N cs q H HF) as (Hn & HC & HA & HT).
  split; [intros v; eexists; apply HA|]. split; [intros v; eexists; apply HT|]. split.
  - intros M v HM. unfold os_apply, os_apply_t. rewrite Hn, (proj2 (Nat.eqb_neq _ _)) by auto. split; reflexivity.
  - intros len x start z out Hz dense. unfold snz_new in Hz. apply guard_inv in Hz as [G Hz]. apply Nat.leb_le in G. injection Hz as <-.
    destruct (exec_steps junk cs _ _ (new_wf N) H) as (Hw & _ & K). apply fit_placed in HF. destruct (K HF) as (_ & _ & HS & HST). cbn [os_new q_seq] in HS, HST. cbn [sem] in HS. cbn [sem_t] in HST.
    set (z := NZ start len N x : snz Rops).
    destruct (nz_apply q out z Hw HF) as [E1 E2]; [exact G|symmetry; exact Hn|]. rewrite Hn in E1, E2. rewrite HS in E1. rewrite HST in E2.
    assert (Hd : forall j, (j < N)%nat -> full_of z out j = dense j).
    { intros j Hj. unfold full_of, dense, z, z_end. cbn [z_start z_len z_size z_v]. destruct (Nat.ltb_spec j start).
      - rewrite (proj2 (Nat.leb_gt _ _)) by auto. reflexivity.
      - rewrite (proj2 (Nat.leb_le _ _)) by auto. cbn [andb]. destruct (Nat.ltb_spec j (start + len)); [reflexivity|]. rewrite (proj2 (Nat.ltb_lt _ _)) by auto. reflexivity. }
    split; [|split; [|split; eexists; [exact E1|exact E2]]].
    + intros w w' E3 E4 i Hi. rewrite HA in E3. rewrite E1 in E4. injection E3 as <-. injection E4 as <-. rewrite !(facts_mvec N) by auto. apply mvec_ext. exact Hd.
    + intros w w' E3 E4 i Hi. rewrite HT in E3. rewrite E2 in E4. injection E3 as <-. injection E4 as <-. rewrite !(facts_t_mvec N) by auto. apply mvec_ext. exact Hd.
Qed.
(** The product and its transpose are adjoint for any factors; when every rotation given satisfies c²+s²=1 and every reflector
    tau·|v|²=2 (or tau=0), the product is an orthogonal matrix, so the two functions are inverse of each other and keep dot products. *)
Theorem C23_adjoint junk N cs q u v u' v' : exec junk (os_new N) cs = Ok q -> Forall nonempty cs -> os_apply q N u = Ok u' -> os_apply_t q N v = Ok v' ->
  rdot N u' v = rdot N u v'.
Proof.
  intros H Hc Hu Hv. destruct (history_apply junk N cs q H (history_fit junk N cs q u u' H Hc (or_introl Hu))) as (_ & HC & HA & HT). rewrite HA in Hu. rewrite HT in Hv. injection Hu as <-. injection Hv as <-. apply facts_adjoint; auto.
Qed.
Definition unitary_factor (c : cmd) : Prop :=
  match c with
  | Prepare _ _ _ => True
  | AddGivens _ g => gc g * gc g + gs g * gs g = 1
  | AddHouseholder _ esz ess tau => tau = 0 \/ tau * (1 + rsum esz (fun r => ess r * ess r)) = 2
  end.
Lemma unitary_orth cs : Forall unitary_factor cs -> Forall orthogonal_factor cs.
Proof. intros H. eapply Forall_impl; [|exact H]. intros [ty n k|p g|p esz ess tau]; cbn [unitary_factor orthogonal_factor]; tauto. Qed.
Theorem C23_orthogonal junk N cs q : exec junk (os_new N) cs = Ok q -> Forall nonempty cs -> (exists v w, os_apply q N v = Ok w) -> Forall unitary_factor cs ->
  orthogonal N (product N cs) /\
  (forall v w x, os_apply q N v = Ok w -> os_apply_t q N w = Ok x -> forall i, (i < N)%nat -> x i = v i) /\
  (forall v w x, os_apply_t q N v = Ok w -> os_apply q N w = Ok x -> forall i, (i < N)%nat -> x i = v i) /\
  (forall v v' w w', os_apply q N v = Ok w -> os_apply q N v' = Ok w' -> rdot N w w' = rdot N v v') /\
  (forall v v' w w', os_apply_t q N v = Ok w -> os_apply_t q N v' = Ok w' -> rdot N w w' = rdot N v v').
Proof.
  intros H Hc (v0 & w0 & Hv0) Ho. apply unitary_orth in Ho. destruct (history_apply junk N cs q H (history_fit junk N cs q v0 w0 H Hc (or_introl Hv0))) as (_ & HC & HA & HT).
  pose proof (facts_inverse cs Ho) as HI. split; [|split; [|split; [|split]]].
  - intros i j Hi Hj. split.
    + transitivity (facts_t cs (facts cs (basis j)) i).
      * rewrite (facts_t_mvec N) by auto. rewrite (mvec_ext N _ _ (fun k => product N cs k j)); [reflexivity|]. intros k Hk. rewrite (facts_mvec N) by auto. apply mvec_basis. auto.
      * rewrite (proj1 (HI _)). unfold basis, unit_. reflexivity.
    + transitivity (facts cs (facts_t cs (basis j)) i).
      * rewrite (facts_mvec N) by auto. rewrite (mvec_ext N _ _ (fun k => product N cs j k)); [reflexivity|]. intros k Hk. rewrite (facts_t_mvec N) by auto. apply (mvec_basis N (mt (product N cs))). auto.
      * rewrite (proj2 (HI _)). unfold basis, unit_. reflexivity.
  - intros v w x Hw Hx i Hi. rewrite HA in Hw. injection Hw as <-. rewrite HT in Hx. injection Hx as <-. rewrite (proj1 (HI v)). reflexivity.
  - intros v w x Hw Hx i Hi. rewrite HT in Hw. injection Hw as <-. rewrite HA in Hx. injection Hx as <-. rewrite (proj2 (HI v)). reflexivity.
  - intros v v' w w' Hw Hw'. rewrite HA in Hw, Hw'. injection Hw as <-. injection Hw' as <-. rewrite (facts_adjoint N cs HC). rewrite (proj1 (HI v')). reflexivity.
  - intros v v' w w' Hw Hw'. rewrite HT in Hw, Hw'. injection Hw as <-. injection Hw' as <-. rewrite <- (facts_adjoint N cs HC). rewrite (proj2 (HI v)). reflexivity.
Qed.

(** A history of the kind StructuredQR makes: two reflectors in elements of their own, then two rotations. *)
Definition ex_cs : list cmd :=
  [Prepare OHouseholder 4 1; AddHouseholder 0 3 (fun r => if (r =? 0)%nat then 1 else 0) 1;
   Prepare OHouseholder 3 1; AddHouseholder 1 2 (fun r => 0) 2;
   Prepare OGivens 3 2; AddGivens 0 (Gv (3/5) (4/5)); AddGivens 1 (Gv 0 1)].
Definition ex_q : roseq := match exec (fun _ => 7) (os_new 4) ex_cs with Ok q => q | UB => os_new 0 end.
Lemma ex_exec : exec (fun _ => 7) (os_new 4) ex_cs = Ok ex_q.
Proof. reflexivity. Qed.
Example C23_nonvacuous : Forall nonempty ex_cs /\ Forall unitary_factor ex_cs /\ (forall v, exists w, os_apply ex_q 4 v = Ok w).
Proof.
  split; [repeat constructor|]. split.
  { unfold ex_cs. repeat (apply Forall_cons; [cbn [unitary_factor gc gs]; try exact I; try lra; right; rewrite ?sum_S, ?sum_0; cbn; lra|]). apply Forall_nil. }
  intros v. eexists. reflexivity.
Qed.

(** ** C35 *)
(** A single-segment vector can be built exactly when the segment lies inside the vector; its expansion
    and its dot product are those of the dense vector. *)
Theorem C35_dense_expansion len (x : rvec) start size :
  ((exists z, snz_new len x start size = Ok z) <-> (start + len <= size)%nat) /\
  forall z, snz_new len x start size = Ok z ->
    let dense := fun i => if (start <=? i)%nat && (i <? start + len)%nat then x (i - start)%nat else 0 in
    (forall u, exists d, toFullVector z size u = Ok d /\ forall i, (i < size)%nat -> d i = dense i) /\
    (forall u, snz_dot z size u = Ok (rdot size dense u)) /\
    (forall m u, m <> size -> toFullVector z m u = UB /\ snz_dot z m u = UB).
Proof.
  split.
  - unfold snz_new. split; [intros [z Hz]; apply guard_inv in Hz as [G _]; apply Nat.leb_le; exact G|]. intros Hl. rewrite (proj2 (Nat.leb_le _ _)) by auto. eexists. reflexivity.
  - intros z Hz dense. unfold snz_new in Hz. apply guard_inv in Hz as [G Hz]. apply Nat.leb_le in G. injection Hz as <-. split; [|split].
    + intros u. unfold toFullVector. cbn [z_size]. rewrite Nat.eqb_refl. cbn [guard]. eexists. split; [reflexivity|]. intros i Hi. rewrite vm_id. unfold dense, z_end. cbn [z_start z_len z_size z_v]. destruct (Nat.ltb_spec i start).
      * rewrite (proj2 (Nat.leb_gt _ _)) by auto. reflexivity.
      * rewrite (proj2 (Nat.leb_le _ _)) by auto. cbn [andb]. destruct (Nat.ltb_spec i (start + len)); [reflexivity|]. rewrite (proj2 (Nat.ltb_lt _ _)) by auto. reflexivity.
    + intros u. unfold snz_dot. cbn [z_size z_len z_start z_v]. rewrite Nat.eqb_refl. cbn [guard]. f_equal. rewrite dot_def. replace size with (start + (len + (size - start - len)))%nat by lia.
      rewrite sum_app, sum_app. rewrite (sum_zero start), (sum_zero (size - start - len)).
      * rewrite Rplus_0_r, Rplus_0_l. apply sum_ext. intros k Hk. unfold dense. rewrite (proj2 (Nat.leb_le _ _)) by lia. rewrite (proj2 (Nat.ltb_lt _ _)) by lia. cbn [andb]. rops. do 2 f_equal. lia.
      * intros i Hi. unfold dense. rewrite (proj2 (Nat.ltb_ge _ _)) by lia. rewrite andb_false_r. ring.
      * intros i Hi. unfold dense. rewrite (proj2 (Nat.leb_gt _ _)) by lia. cbn [andb]. ring.
    + intros m u Hm. unfold toFullVector, snz_dot. cbn [z_size]. rewrite (proj2 (Nat.eqb_neq _ _)) by auto. split; reflexivity.
Qed.
Example C35_nonvacuous : (exists z, snz_new 2 (fun k => if (k =? 0)%nat then 3 else 5) 1 4 = Ok (z : snz Rops)) /\ snz_new 2 (fun _ => 1) 3 4 = (UB : res (snz Rops)).
Proof. split; [eexists; reflexivity|reflexivity]. Qed.

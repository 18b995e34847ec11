(** Orthonormal sequences in exact arithmetic: the object is the product of the
    elementary matrices added to it. *)
From Coq Require Import List Arith ZArith Lia Bool Reals Lra FunctionalExtensionality.
From Verif Require Import Base Num Solver LinAlg GIBase Ortho.
Import ListNotations.
Local Open Scope R_scope.

Notation relem := (elem Rops).
Notation roseq := (oseq Rops).
Notation rgivens := (givens Rops).

(** ** Calls, and the transformation each of them stands for *)
Inductive cmd :=
| Prepare (ty : otype) (n seqSize : nat)
| AddGivens (start : nat) (g : rgivens)
| AddHouseholder (start esz : nat) (ess : rvec) (tau : R).

Definition exec1 (junk : rvec) (q : roseq) (c : cmd) : res roseq :=
  match c with
  | Prepare ty n k => os_prepare junk q ty n k
  | AddGivens st g => os_addG q st g
  | AddHouseholder st esz ess tau => os_addH q st esz ess tau
  end.
Fixpoint exec (junk : rvec) (q : roseq) (cs : list cmd) : res roseq :=
  match cs with [] => Ok q | c :: cs' => do q <- exec1 junk q c; exec junk q cs' end.

Definition fact (c : cmd) (v : rvec) : rvec :=
  match c with
  | Prepare _ _ _ => v
  | AddGivens p g => fun i => if (i =? p)%nat then gc g * v p + gs g * v (S p) else if (i =? S p)%nat then - gs g * v p + gc g * v (S p) else v i
  | AddHouseholder p esz ess tau =>
      let d := v p + rsum esz (fun r => ess r * v (S p + r)%nat) in
      fun i => if (i =? p)%nat then v p - tau * d else if (p <? i)%nat && (i <=? p + esz)%nat then v i - tau * ess (i - p - 1)%nat * d else v i
  end.
Definition fact_t (c : cmd) : rvec -> rvec :=
  match c with
  | AddGivens p g => fact (AddGivens p (Gv (gc g) (- gs g)))
  | _ => fact c
  end.
Definition c_in (N : nat) (c : cmd) : Prop :=
  match c with
  | Prepare _ _ _ => True
  | AddGivens p _ => (S p < N)%nat
  | AddHouseholder p esz _ _ => (p + esz < N)%nat
  end.

(** ** Meaning of one element *)
Definition eE (e : relem) : rmat := view (e_n e) (w_buf (e_w1 e)).
Definition eh (e : relem) : rvec := w_buf (e_w2 e).
Definition esem (e : relem) (v : rvec) : rvec :=
  match e_ty e with
  | OHouseholder => hh_apply (e_n e) (eE e) (eh e) (e_size e) v
  | OGivens => g_down (e_n e) (w_buf (e_w1 e)) (eh e) (e_size e) v
  | OPermutation => v
  end.
Definition esem_t (e : relem) (v : rvec) : rvec :=
  match e_ty e with
  | OHouseholder => hh_apply_t (e_n e) (eE e) (eh e) (e_size e) v
  | OGivens => g_up (e_n e) (w_buf (e_w1 e)) (eh e) 0 (e_size e) v
  | OPermutation => v
  end.
Definition onseg (st n : nat) (f : rvec -> rvec) (v : rvec) : rvec :=
  fun i => if (st <=? i)%nat && (i <? st + n)%nat then f (fun k => v (st + k)%nat) (i - st)%nat else v i.
Fixpoint sem (l : list (nat * relem)) (v : rvec) : rvec :=
  match l with [] => v | (st, e) :: l' => sem l' (onseg st (e_n e) (esem e) v) end.
Fixpoint sem_t (l : list (nat * relem)) (v : rvec) : rvec :=   (* last element of the list first *)
  match l with [] => v | (st, e) :: l' => onseg st (e_n e) (esem_t e) (sem_t l' v) end.

Record elem_wf (e : relem) : Prop := {
  ew_h : e_ty e = OHouseholder -> (e_size e <= e_n e)%nat /\ (e_n e * e_size e <= w_size (e_w1 e))%nat /\ (e_size e <= w_size (e_w2 e))%nat /\
           forall k, (k < e_size e)%nat -> eE e k k = 1;
  ew_g : e_ty e = OGivens -> (e_size e <= w_size (e_w1 e))%nat /\ (e_size e <= w_size (e_w2 e))%nat;
  ew_p : e_ty e <> OPermutation
}.
Definition placed (N : nat) (p : nat * relem) : Prop :=
  (fst p + e_n (snd p) <= N)%nat /\ (e_ty (snd p) = OGivens -> e_size (snd p) = 0%nat \/ (e_size (snd p) < e_n (snd p))%nat).

(** ** The elementary steps stay inside the segment *)
Lemma hh_step_out n E h k (v : rvec) i : (k < n)%nat -> (n <= i)%nat -> @hh_step Rops n E h k v i = v i.
Proof.
  intros Hk Hi. unfold hh_step. destruct (n - k =? 1)%nat.
  - unfold upd. destruct (Nat.eqb_spec i k); [lia|reflexivity].
  - destruct (eqb Rops (h k) (zero Rops)); [reflexivity|]. rewrite vm_at. destruct (Nat.eqb_spec i k); [lia|]. rewrite (proj2 (Nat.ltb_ge i n)) by auto. rewrite andb_false_r. reflexivity.
Qed.
Lemma hh_apply_out n E h cnt : forall (v : rvec) i, (cnt <= n)%nat -> (n <= i)%nat -> @hh_apply Rops n E h cnt v i = v i.
Proof.
  induction cnt as [|k IH]; intros v i Hk Hi; [reflexivity|]. cbn [hh_apply]. rewrite IH by lia. apply hh_step_out; lia.
Qed.
Lemma hh_apply_t_out n E h cnt : forall (v : rvec) i, (cnt <= n)%nat -> (n <= i)%nat -> @hh_apply_t Rops n E h cnt v i = v i.
Proof.
  induction cnt as [|k IH]; intros v i Hk Hi; [reflexivity|]. cbn [hh_apply_t]. rewrite hh_step_out by lia. apply IH; lia.
Qed.
Lemma g_step_out n c s i (v : rvec) k : (S i < n)%nat -> (n <= k)%nat -> @g_step Rops n c s i v k = v k.
Proof.
  intros Hi Hk. unfold g_step. rewrite vm_at. destruct (Nat.eqb_spec k i); [lia|]. destruct (Nat.eqb_spec k (S i)); [lia|]. reflexivity.
Qed.
Lemma g_down_out n c s cnt : forall (v : rvec) k, (cnt = 0 \/ cnt < n)%nat -> (n <= k)%nat -> @g_down Rops n c s cnt v k = v k.
Proof.
  induction cnt as [|i IH]; intros v k Hc Hk; [reflexivity|]. cbn [g_down]. rewrite IH by lia. apply g_step_out; lia.
Qed.
Lemma g_up_out n c s cnt : forall b (v : rvec) k, (cnt = 0 \/ b + cnt < n)%nat -> (n <= k)%nat -> @g_up Rops n c s b cnt v k = v k.
Proof.
  induction cnt as [|i IH]; intros b v k Hc Hk; [reflexivity|]. cbn [g_up]. rewrite IH by lia. apply g_step_out; lia.
Qed.
Lemma esem_out e (v : rvec) i : elem_wf e -> (e_ty e = OGivens -> e_size e = 0%nat \/ (e_size e < e_n e)%nat) -> (e_n e <= i)%nat -> esem e v i = v i.
Proof.
  intros [Hh Hg Hp] HG Hi. unfold esem. destruct (e_ty e) eqn:E; [|apply g_down_out; auto|reflexivity]. apply hh_apply_out; auto. apply Hh; auto.
Qed.
Lemma esem_t_out e (v : rvec) i : elem_wf e -> (e_ty e = OGivens -> e_size e = 0%nat \/ (e_size e < e_n e)%nat) -> (e_n e <= i)%nat -> esem_t e v i = v i.
Proof.
  intros [Hh Hg Hp] HG Hi. unfold esem_t. destruct (e_ty e) eqn:E; [|apply g_up_out; auto|reflexivity]. apply hh_apply_t_out; auto. apply Hh; auto.
Qed.
Lemma onseg_comp st n f g (v : rvec) : (forall w k, (n <= k)%nat -> g w k = w k) -> onseg st n (fun w => f (g w)) v = onseg st n f (onseg st n g v).
Proof.
  intros Hg. apply functional_extensionality. intros i. unfold onseg at 1 2. destruct ((st <=? i)%nat && (i <? st + n)%nat) eqn:E.
  - f_equal. f_equal. apply functional_extensionality. intros k. unfold onseg. destruct (Nat.ltb_spec (st + k) (st + n)).
    + rewrite (proj2 (Nat.leb_le st (st + k))) by lia. cbn [andb]. f_equal. lia.
    + rewrite andb_false_r. rewrite Hg by lia. reflexivity.
  - unfold onseg. rewrite E. reflexivity.
Qed.
Lemma onseg_id st n (v : rvec) : onseg st n (fun w => w) v = v.
Proof.
  apply functional_extensionality. intros i. unfold onseg. destruct (Nat.leb_spec st i); cbn [andb]; [|reflexivity]. destruct (i <? st + n)%nat; [|reflexivity]. f_equal. lia.
Qed.

(** ** The steps are the elementary transformations *)
Lemma onseg_hh st n E h k (v : rvec) ess tau : (k < n)%nat -> (forall r, (r < n - k - 1)%nat -> E (k + 1 + r)%nat k = ess r) -> h k = tau ->
  onseg st n (@hh_step Rops n E h k) v = fact (AddHouseholder (st + k) (n - k - 1) ess tau) v.
Proof.
  intros Hk HE Hh. apply functional_extensionality. intros i. unfold onseg, fact. cbv zeta.
  set (d := v (st + k)%nat + rsum (n - k - 1) (fun r => ess r * v (S (st + k) + r)%nat)).
  unfold hh_step. rewrite Hh. rops. destruct (Nat.leb_spec st i) as [H1|H1]; cbn [andb].
  2:{ destruct (Nat.eqb_spec i (st + k)); [lia|]. rewrite (proj2 (Nat.ltb_ge (st + k) i)) by lia. reflexivity. }
  destruct (Nat.ltb_spec i (st + n)) as [H2|H2]; cbn [andb].
  2:{ destruct (Nat.eqb_spec i (st + k)); [lia|]. rewrite (proj2 (Nat.leb_gt i _)) by lia. rewrite andb_false_r. reflexivity. }
  destruct (Nat.eqb_spec (n - k) 1) as [H3|H3].
  - unfold upd. assert (Hd : d = v (st + k)%nat). { unfold d. replace (n - k - 1)%nat with 0%nat by lia. rewrite sum_0. lra. } rewrite Hd.
    destruct (Nat.eqb_spec (i - st) k) as [H4|H4].
    + rewrite (proj2 (Nat.eqb_eq i (st + k))) by lia. ring.
    + destruct (Nat.eqb_spec i (st + k)); [lia|]. rewrite (proj2 (Nat.ltb_ge (st + k) i)) by lia. cbn [andb]. f_equal. lia.
  - destruct (Reqb_spec tau 0) as [H5|H5].
    + rewrite H5. replace (st + (i - st))%nat with i by lia. destruct (Nat.eqb_spec i (st + k)) as [->|]; [ring|]. destruct ((st + k <? i)%nat && _); ring.
    + rewrite vm_at. assert (Hd : rsum (n - k - 1) (fun r => E (k + 1 + r)%nat k * v (st + (k + 1 + r))%nat) + v (st + k)%nat = d).
      { unfold d. rewrite Rplus_comm. f_equal. apply sum_ext. intros r Hr. rewrite HE by auto. do 2 f_equal. lia. }
      cbv zeta. rewrite Hd. destruct (Nat.eqb_spec (i - st) k) as [H4|H4].
      * rewrite (proj2 (Nat.eqb_eq i (st + k))) by lia. reflexivity.
      * destruct (Nat.eqb_spec i (st + k)); [lia|]. destruct (Nat.ltb_spec k (i - st)) as [H6|H6].
        { rewrite (proj2 (Nat.ltb_lt (st + k) i)) by lia. rewrite (proj2 (Nat.leb_le i _)) by lia. rewrite (proj2 (Nat.ltb_lt (i - st) n)) by lia. cbn [andb].
          replace (i - st)%nat with (k + 1 + (i - (st + k) - 1))%nat at 2 by lia. rewrite HE by lia. replace (st + (i - st))%nat with i by lia. reflexivity. }
        { rewrite (proj2 (Nat.ltb_ge (st + k) i)) by lia. cbn [andb]. f_equal. lia. }
Qed.
Lemma onseg_g st n c s i (v : rvec) : (S i < n)%nat ->
  onseg st n (@g_step Rops n c s i) v = fact (AddGivens (st + i) (Gv (S := Rops) c s)) v.
Proof.
  intros Hi. apply functional_extensionality. intros j. unfold onseg, fact, g_step. cbn [gc gs]. rewrite vm_at. rops.
  destruct (Nat.leb_spec st j) as [H1|H1]; cbn [andb].
  2:{ destruct (Nat.eqb_spec j (st + i)); [lia|]. destruct (Nat.eqb_spec j (S (st + i))); [lia|]. reflexivity. }
  destruct (Nat.ltb_spec j (st + n)) as [H2|H2]; cbn [andb].
  2:{ destruct (Nat.eqb_spec j (st + i)); [lia|]. destruct (Nat.eqb_spec j (S (st + i))); [lia|]. reflexivity. }
  replace (st + S i)%nat with (S (st + i)) by lia. destruct (Nat.eqb_spec (j - st) i).
  - rewrite (proj2 (Nat.eqb_eq j (st + i))) by lia. reflexivity.
  - destruct (Nat.eqb_spec j (st + i)); [lia|]. destruct (Nat.eqb_spec (j - st) (S i)).
    + rewrite (proj2 (Nat.eqb_eq j (S (st + i)))) by lia. reflexivity.
    + destruct (Nat.eqb_spec j (S (st + i))); [lia|]. f_equal. lia.
Qed.

(** size one: the direct formula is the general one *)
Lemma hh_one_step n E h (v : rvec) : (0 < n)%nat -> E 0%nat 0%nat = 1 -> @hh_one Rops n E h 0 n v = @hh_step Rops n E h 0 v.
Proof.
  intros Hn HE. apply functional_extensionality. intros i. unfold hh_one, hh_step. rewrite vm_at. rops. rewrite Nat.sub_0_r.
  assert (Hd : rsum n (fun r => E (0 + r)%nat 0%nat * v (0 + r)%nat) = rsum (n - 1) (fun r => E (0 + 1 + r)%nat 0%nat * v (0 + 1 + r)%nat) + v 0%nat).
  { replace n with (1 + (n - 1))%nat at 1 by lia. rewrite sum_app, sum_S, sum_0. cbn [Nat.add]. rewrite HE. ring. }
  cbv zeta. rewrite Hd. destruct (Nat.eqb_spec n 1) as [->|H1].
  - cbn [Nat.sub]. rewrite sum_0. unfold upd. destruct (Nat.ltb_spec i 1).
    + replace i with 0%nat by lia. cbn [Nat.eqb]. rewrite HE. ring.
    + destruct (Nat.eqb_spec i 0); [lia|reflexivity].
  - destruct (Reqb_spec (h 0%nat) 0) as [H2|H2].
    + rewrite H2. destruct (i <? n)%nat; ring.
    + rewrite vm_at. destruct (Nat.eqb_spec i 0) as [->|H3].
      * rewrite (proj2 (Nat.ltb_lt _ _)) by auto. rewrite HE. ring.
      * rewrite (proj2 (Nat.ltb_lt 0 i)) by lia. cbn [andb]. destruct (i <? n)%nat; [ring|reflexivity].
Qed.
Lemma elem_apply_sem e (v : rvec) : elem_wf e -> (e_ty e = OGivens -> e_size e = 0%nat \/ (e_size e < e_n e)%nat) -> elem_apply e (e_n e) v 0 (e_n e) = Ok (esem e v).
Proof.
  intros [Hh Hg Hp] HG. unfold elem_apply, esem. cbn [Nat.add]. rewrite Nat.eqb_refl, Nat.leb_refl. cbn [andb guard]. destruct (e_ty e) eqn:E; [| |congruence].
  - destruct (Hh eq_refl) as (H1 & H2 & H3 & H4). rewrite getM_ok by auto. rewrite getV_ok by auto. cbn [bind]. rewrite Nat.min_r by auto.
    destruct (Nat.eqb_spec (e_size e) 1) as [H5|H5]; [|reflexivity]. rewrite H5 in *. cbn [hh_apply]. rewrite hh_one_step; [reflexivity|lia|exact (H4 0%nat ltac:(lia))].
  - destruct (Hg eq_refl) as (H1 & H2). rewrite !getV_ok by auto. cbn [bind]. specialize (HG eq_refl). rewrite Nat.min_l by lia.
    replace ((e_size e =? 0)%nat || (e_size e <? e_n e)%nat) with true; [reflexivity|]. symmetry. apply orb_true_iff. destruct HG; [left; apply Nat.eqb_eq|right; apply Nat.ltb_lt]; auto.
Qed.
Lemma elem_apply_t_sem e (v : rvec) : elem_wf e -> (e_ty e = OGivens -> e_size e = 0%nat \/ (e_size e < e_n e)%nat) -> elem_apply_t e (e_n e) v 0 (e_n e) = Ok (esem_t e v).
Proof.
  intros [Hh Hg Hp] HG. unfold elem_apply_t, esem_t. cbn [Nat.add]. rewrite Nat.eqb_refl, Nat.leb_refl. cbn [andb guard]. destruct (e_ty e) eqn:E; [| |congruence].
  - destruct (Hh eq_refl) as (H1 & H2 & H3 & H4). rewrite getM_ok by auto. rewrite getV_ok by auto. cbn [bind]. rewrite Nat.min_r by auto.
    destruct (Nat.eqb_spec (e_size e) 1) as [H5|H5]; [|reflexivity]. rewrite H5 in *. cbn [hh_apply_t]. rewrite hh_one_step; [reflexivity|lia|exact (H4 0%nat ltac:(lia))].
  - destruct (Hg eq_refl) as (H1 & H2). rewrite !getV_ok by auto. cbn [bind Nat.sub]. specialize (HG eq_refl). rewrite Nat.sub_0_r.
    replace ((e_size e <=? 0)%nat || (e_size e <? e_n e)%nat) with true; [reflexivity|]. symmetry. apply orb_true_iff. destruct HG; [left; apply Nat.leb_le; lia|right; apply Nat.ltb_lt; auto].
Qed.
Lemma on_segment_ok N st n (v : rvec) f g : (st + n <= N)%nat -> (forall w, f w = Ok (g w)) -> @on_segment Rops N st n v f = Ok (onseg st n g v).
Proof.
  intros H Hf. unfold on_segment, guard. rewrite (proj2 (Nat.leb_le _ _)) by auto. rewrite Hf. cbn [bind]. rewrite vm_id. reflexivity.
Qed.

Definition seq_wf (N : nat) (l : list (nat * relem)) : Prop := Forall (fun p => elem_wf (snd p)) l.
Lemma os_app_sem N l : Forall (fun p => elem_wf (snd p)) l -> Forall (placed N) l -> forall v, os_app N l v = Ok (sem l v).
Proof.
  intros Hw. induction Hw as [|[st e] l Hw1 _ IH]; intros Hp v; [reflexivity|]. inversion Hp as [|? ? [H1 H2] Hp']; subst. cbn [fst snd] in *. cbn [os_app sem].
  rewrite (on_segment_ok _ _ _ _ _ (esem e)) by (auto; intros; apply elem_apply_sem; auto). cbn [bind]. apply IH. exact Hp'.
Qed.
Lemma os_app_t_snoc N l1 : forall l2 v, @os_app_t Rops N (l1 ++ l2) v = do v <- os_app_t N l1 v; os_app_t N l2 v.
Proof.
  induction l1 as [|[st e] l1 IH]; intros l2 v; [reflexivity|]. cbn [app os_app_t]. destruct (on_segment _ _ _ _ _); [|reflexivity]. cbn [bind]. apply IH.
Qed.
Lemma os_app_t_sem N l : Forall (fun p => elem_wf (snd p)) l -> Forall (placed N) l -> forall v, os_app_t N (rev l) v = Ok (sem_t l v).
Proof.
  intros Hw. induction Hw as [|[st e] l Hw1 _ IH]; intros Hp v; [reflexivity|]. inversion Hp as [|? ? [H1 H2] Hp']; subst. cbn [fst snd rev] in *.
  rewrite os_app_t_snoc, IH by auto. cbn [bind os_app_t sem_t]. rewrite (on_segment_ok _ _ _ _ _ (esem_t e)) by (auto; intros; apply elem_apply_t_sem; auto). reflexivity.
Qed.

(** ** One call *)
Lemma g_down_ext n (c s c' s' : rvec) cnt : forall v, (forall i, (i < cnt)%nat -> c i = c' i /\ s i = s' i) -> @g_down Rops n c s cnt v = g_down n c' s' cnt v.
Proof.
  induction cnt as [|k IH]; intros v H; [reflexivity|]. cbn [g_down]. destruct (H k ltac:(lia)) as [-> ->]. apply IH. intros i Hi. apply H. lia.
Qed.
Lemma g_up_snoc n (c s : rvec) cnt : forall b v, @g_up Rops n c s b (S cnt) v = g_step n (c (b + cnt)%nat) (- s (b + cnt)%nat) (b + cnt) (g_up n c s b cnt v).
Proof.
  induction cnt as [|k IH]; intros b v; [cbn; rewrite Nat.add_0_r; reflexivity|].
  change (g_up n c s b (S (S k)) v) with (g_up n c s (S b) (S k) (g_step n (c b) (opp Rops (s b)) b v)). rewrite IH.
  change (g_up n c s b (S k) v) with (g_up n c s (S b) k (g_step n (c b) (opp Rops (s b)) b v)). replace (S b + k)%nat with (b + S k)%nat by lia. reflexivity.
Qed.
Lemma g_up_ext n (c s c' s' : rvec) cnt : forall b v, (forall i, (b <= i)%nat -> (i < b + cnt)%nat -> c i = c' i /\ s i = s' i) -> @g_up Rops n c s b cnt v = g_up n c' s' b cnt v.
Proof.
  induction cnt as [|k IH]; intros b v H; [reflexivity|]. cbn [g_up]. destruct (H b ltac:(lia) ltac:(lia)) as [-> ->]. apply IH. intros i Hi Hi'. apply H; lia.
Qed.
Lemma hh_step_ext n (E E' : rmat) (h h' : rvec) k v : (forall i, (k < i)%nat -> (i < n)%nat -> E i k = E' i k) -> h k = h' k -> @hh_step Rops n E h k v = hh_step n E' h' k v.
Proof.
  intros HE Hh. unfold hh_step. rewrite Hh. destruct (n - k =? 1)%nat; [reflexivity|]. destruct (eqb Rops (h' k) _); [reflexivity|]. rewrite !vm_id.
  apply functional_extensionality. intros i. cbv zeta. rops. rewrite (sum_ext (n - k - 1) _ (fun r => E' (k + 1 + r)%nat k * v (k + 1 + r)%nat)) by (intros r Hr; rewrite HE by lia; reflexivity).
  destruct (i =? k)%nat; [reflexivity|]. destruct (Nat.ltb_spec k i); [|reflexivity]. destruct (Nat.ltb_spec i n); [|reflexivity]. cbn [andb]. rewrite HE by auto. reflexivity.
Qed.
Lemma hh_apply_ext n (E E' : rmat) (h h' : rvec) cnt : forall v, (forall i k, (k < cnt)%nat -> (k < i)%nat -> (i < n)%nat -> E i k = E' i k) -> (forall k, (k < cnt)%nat -> h k = h' k) ->
  @hh_apply Rops n E h cnt v = hh_apply n E' h' cnt v.
Proof.
  induction cnt as [|k IH]; intros v HE Hh; [reflexivity|]. cbn [hh_apply]. rewrite (hh_step_ext n E E' h h') by auto. apply IH; auto.
Qed.
Lemma hh_apply_t_ext n (E E' : rmat) (h h' : rvec) cnt : forall v, (forall i k, (k < cnt)%nat -> (k < i)%nat -> (i < n)%nat -> E i k = E' i k) -> (forall k, (k < cnt)%nat -> h k = h' k) ->
  @hh_apply_t Rops n E h cnt v = hh_apply_t n E' h' cnt v.
Proof.
  induction cnt as [|k IH]; intros v HE Hh; [reflexivity|]. cbn [hh_apply_t]. rewrite (hh_step_ext n E E' h h') by auto. f_equal. apply IH; auto.
Qed.
Lemma guard_inv {X} b (x : res X) y : guard b x = Ok y -> b = true /\ x = Ok y.
Proof. destruct b; cbn; intros H; [auto|discriminate]. Qed.
Lemma bind_inv {X Y} (x : res X) (f : X -> res Y) y : (do v <- x; f v) = Ok y -> exists v, x = Ok v /\ f v = Ok y.
Proof. destruct x as [v|]; cbn; intros H; [exists v; auto|discriminate]. Qed.
Lemma getV_inv (w : work Rops) n v : getV w n = Ok v -> (n <= w_size w)%nat /\ v = w_buf w.
Proof. intros H. apply guard_inv in H as [H1 H2]. apply Nat.leb_le in H1. injection H2 as <-. auto. Qed.
Lemma getM_inv (w : work Rops) r c ld M : getM w r c ld = Ok M -> (ld * c <= w_size w)%nat /\ (r <= ld)%nat /\ M = view ld (w_buf w).
Proof. intros H. apply guard_inv in H as [H1 H2]. apply andb_true_iff in H1 as [H1 H3]. apply Nat.leb_le in H1, H3. injection H2 as <-. auto. Qed.

Lemma back_inv (q : roseq) ty start st e rest : os_back q ty start = Ok (st, e, rest) ->
  exists st0, q_seq q = (st0, e) :: rest /\ e_ty e = ty /\ (st + e_size e)%nat = start /\ (e_size e <> 0%nat -> st = st0).
Proof.
  unfold os_back. destruct (q_seq q) as [|[st0 e0] l]; [discriminate|]. intros H. apply guard_inv in H as [H1 H2]. exists st0.
  assert (Ht : e_ty e0 = ty) by (destruct (e_ty e0), ty; cbn in H1; congruence).
  destruct (Nat.eqb_spec (e_size e0) 0) as [H3|H3].
  - injection H2 as <- <- <-. split; [reflexivity|]. split; [exact Ht|]. split; [lia|]. intros; contradiction.
  - apply guard_inv in H2 as [H2 H4]. injection H4 as <- <- <-. apply Nat.eqb_eq in H2. auto.
Qed.
Lemma onseg_indep st st' n (f : rvec -> rvec) v : (forall w, f w = w) -> onseg st n f v = onseg st' n f v.
Proof. intros H. replace f with (fun w : rvec => w) by (apply functional_extensionality; intros w; rewrite H; reflexivity). rewrite !onseg_id. reflexivity. Qed.
Lemma esem_0 e v : e_size e = 0%nat -> esem e v = v.
Proof. intros H. unfold esem. rewrite H. destruct (e_ty e); reflexivity. Qed.
Lemma esem_t_0 e v : e_size e = 0%nat -> esem_t e v = v.
Proof. intros H. unfold esem_t. rewrite H. destruct (e_ty e); reflexivity. Qed.
Lemma onseg_move st st0 n e v : (e_size e <> 0%nat -> st = st0) -> onseg st n (esem e) v = onseg st0 n (esem e) v /\ onseg st n (esem_t e) v = onseg st0 n (esem_t e) v.
Proof.
  intros H. destruct (Nat.eq_dec (e_size e) 0) as [H0|H0]; [|rewrite (H H0); auto].
  split; apply onseg_indep; intros; [apply esem_0|apply esem_t_0]; auto.
Qed.

Definition ewf (p : nat * relem) : Prop := elem_wf (snd p) /\ (e_size (snd p) = 0%nat -> fst p = 0%nat).
Definition os_wf (q : roseq) : Prop := Forall ewf (q_seq q).
Definition os_placed (q : roseq) : Prop := Forall (placed (q_n q)) (q_seq q).
Lemma os_wf_elem q : os_wf q -> Forall (fun p => elem_wf (snd p)) (q_seq q).
Proof. apply Forall_impl. intros p [H _]. exact H. Qed.
Lemma upd_lt (v : rvec) k a i : (i < k)%nat -> @upd Rops v k a i = v i.
Proof. intros H. unfold upd. destruct (Nat.eqb_spec i k); [lia|reflexivity]. Qed.
Lemma upd_at (v : rvec) k a : @upd Rops v k a k = a.
Proof. unfold upd. rewrite Nat.eqb_refl. reflexivity. Qed.

Lemma exec1_step junk q c q' : os_wf q -> exec1 junk q c = Ok q' ->
  os_wf q' /\ q_n q' = q_n q /\
  (os_placed q' -> os_placed q /\ c_in (q_n q) c /\ (forall v, sem (q_seq q') v = sem (q_seq q) (fact c v)) /\ (forall v, sem_t (q_seq q') v = fact_t c (sem_t (q_seq q) v))).
Proof.
  intros Hw H. unfold os_wf, os_placed in *. destruct c as [ty n k|start g|start esz ess tau]; cbn [exec1] in H.
  - unfold os_prepare in H. apply bind_inv in H as (e & He & H). injection H as <-. cbn [q_n q_seq].
    assert (Hn : e_n e = n /\ e_size e = 0%nat /\ e_ty e <> OPermutation).
    { destruct ty; cbn in He; try discriminate; injection He as <-; cbn; repeat split; discriminate. }
    destruct Hn as (Hn & Hs & Hp). split; [|split; [reflexivity|]].
    + constructor; [|exact Hw]. split; [|auto]. cbn [snd]. split; [| |exact Hp]; rewrite Hs.
      * intros _. rewrite Nat.mul_0_r. repeat split; try apply Nat.le_0_l. intros k' Hk. lia.
      * intros _. split; apply Nat.le_0_l.
    + intros HP. inversion HP as [|? ? _ HP']; subst. split; [exact HP'|]. split; [exact I|]. cbn [sem sem_t fact fact_t]. split; intros v.
      * f_equal. replace (esem e) with (fun w : rvec => w) by (apply functional_extensionality; intros w; rewrite esem_0; auto). apply onseg_id.
      * replace (esem_t e) with (fun w : rvec => w) by (apply functional_extensionality; intros w; rewrite esem_t_0; auto). apply onseg_id.
  - unfold os_addG in H. apply bind_inv in H as ([[st e] rest] & Hb & H). apply bind_inv in H as (e' & He & H). injection H as <-. cbn [q_n q_seq].
    destruct (back_inv _ _ _ _ _ _ Hb) as (st0 & Hq & Ht & Hst & Hmv). rewrite Hq in *. inversion Hw as [|? ? [[Wh Wg Wp] W0] Hw']; subst. cbn [fst snd] in *.
    unfold elem_addG in He. rewrite Ht in He. cbn [otype_eqb guard] in He. apply bind_inv in He as (c & Hc & He). apply bind_inv in He as (s & Hs & He). injection He as <-.
    apply getV_inv in Hc as [Hc1 ->], Hs as [Hs1 ->]. set (k := e_size e) in *. split; [|split; [reflexivity|]].
    + constructor; [|exact Hw']. split; cbn [fst snd]; [|cbn [e_size]; lia]. split; cbn [e_ty e_size e_w1 e_w2 wset w_size]; [discriminate| |discriminate]. intros _. auto.
    + intros HP. inversion HP as [|? ? [HP1 HP2] HP']; subst. cbn [fst snd e_n e_ty e_size] in *. specialize (HP2 eq_refl). assert (Hk : (S k < e_n e)%nat) by lia.
      split; [|split; [|split]].
      * constructor; [|exact HP']. split; cbn [fst snd]; [|intros; right; fold k; lia]. destruct (Nat.eq_dec k 0) as [H0|H0]; [rewrite (W0 H0); lia|rewrite <- (Hmv H0); lia].
      * cbn [c_in]. lia.
      * intros v. cbn [sem e_n]. f_equal. rewrite <- (proj1 (onseg_move st st0 _ e _ Hmv)).
        replace (fact (AddGivens (st + k) g) v) with (onseg st (e_n e) (g_step (S := Rops) (e_n e) (gc g) (gs g) k) v) by (rewrite onseg_g by auto; destruct g; reflexivity).
        rewrite <- onseg_comp by (intros; apply g_step_out; auto). f_equal. apply functional_extensionality. intros w. unfold esem. cbn [e_ty e_n e_size e_w1 eh e_w2 wset w_buf]. rewrite Ht.
        rewrite Nat.add_1_r. cbn [g_down]. rewrite !vm_id, !upd_at. fold k. apply g_down_ext. intros i Hi. rewrite !upd_lt by auto. auto.
      * intros v. cbn [sem_t e_n]. rewrite <- (proj2 (onseg_move st st0 _ e _ Hmv)). set (w0 := sem_t rest v).
        replace (fact_t (AddGivens (st + k) g) (onseg st (e_n e) (esem_t e) w0)) with (onseg st (e_n e) (g_step (S := Rops) (e_n e) (gc g) (- gs g) k) (onseg st (e_n e) (esem_t e) w0)) by (rewrite onseg_g by auto; reflexivity).
        rewrite <- onseg_comp by (intros; apply esem_t_out; [split; auto|intros; right; fold k; lia|auto]). f_equal. apply functional_extensionality. intros w. unfold esem_t. cbn [e_ty e_n e_size e_w1 eh e_w2 wset w_buf]. rewrite Ht.
        rewrite Nat.add_1_r, g_up_snoc. rewrite !vm_id, Nat.add_0_l, !upd_at. fold k. f_equal. apply g_up_ext. intros i Hi1 Hi. cbn in Hi. rewrite !upd_lt by auto. auto.
  - unfold os_addH in H. apply bind_inv in H as ([[st e] rest] & Hb & H). apply bind_inv in H as (e' & He & H). injection H as <-. cbn [q_n q_seq].
    destruct (back_inv _ _ _ _ _ _ Hb) as (st0 & Hq & Ht & Hst & Hmv). rewrite Hq in *. inversion Hw as [|? ? [[Wh Wg Wp] W0] Hw']; subst. cbn [fst snd] in *.
    unfold elem_addH in He. rewrite Ht in He. cbn [otype_eqb guard] in He. apply guard_inv in He as [Hz He]. apply Nat.eqb_eq in Hz. apply bind_inv in He as (E & HE & He). apply bind_inv in He as (t & Htt & He). injection He as <-.
    apply getM_inv in HE as (HE1 & _ & ->). apply getV_inv in Htt as [Ht1 ->]. set (k := e_size e) in *. set (n := e_n e) in *. destruct (Wh Ht) as (Wh1 & Wh2 & Wh3 & Wh4). fold k n in Wh1, Wh2, Wh3, Wh4.
    set (E' := fun i j => if (j =? k)%nat then if (i =? k)%nat then one Rops else if (k <? i)%nat then ess (i - k - 1)%nat else view n (w_buf (e_w1 e)) i j else view n (w_buf (e_w1 e)) i j).
    assert (HV : forall i j, (i < n)%nat -> (j < k + 1)%nat -> view n (unview n (k + 1) E' (w_buf (e_w1 e))) i j = E' i j) by (intros; apply view_unview; auto).
    split; [|split; [reflexivity|]].
    + constructor; [|exact Hw']. split; cbn [fst snd]; [|cbn [e_size]; lia]. split; cbn [e_ty e_n e_size e_w1 e_w2 wset w_size]; [|discriminate|discriminate]. intros _.
      split; [lia|]. split; [exact HE1|]. split; [exact Ht1|]. intros j Hj. unfold eE. cbn [e_n e_w1 w_buf wset]. rewrite HV by lia. unfold E'. destruct (Nat.eqb_spec j k); [reflexivity|]. apply Wh4. lia.
    + intros HP. inversion HP as [|? ? [HP1 HP2] HP']; subst. cbn [fst snd e_n e_ty e_size] in *. assert (Hk : (k < n)%nat) by lia. replace esz with (n - k - 1)%nat in * by lia.
      assert (Hess : forall r, (r < n - k - 1)%nat -> view n (unview n (k + 1) E' (w_buf (e_w1 e))) (k + 1 + r)%nat k = ess r).
      { intros r Hr. rewrite HV by lia. unfold E'. rewrite Nat.eqb_refl. destruct (Nat.eqb_spec (k + 1 + r) k); [lia|]. rewrite (proj2 (Nat.ltb_lt _ _)) by lia. f_equal. lia. }
      assert (Hold : forall i j, (j < k)%nat -> (j < i)%nat -> (i < n)%nat -> view n (unview n (k + 1) E' (w_buf (e_w1 e))) i j = eE e i j).
      { intros i j H1 H2 H3. rewrite HV by lia. unfold E'. destruct (Nat.eqb_spec j k); [lia|]. reflexivity. }
      split; [|split; [|split]].
      * constructor; [|exact HP']. split; cbn [fst snd]; [|congruence]. fold n. destruct (Nat.eq_dec k 0) as [H0|H0]; [rewrite (W0 H0); lia|rewrite <- (Hmv H0); lia].
      * cbn [c_in]. lia.
      * intros v. cbn [sem e_n]. f_equal. rewrite <- (proj1 (onseg_move st st0 _ e _ Hmv)).
        rewrite <- (onseg_hh st n (view n (unview n (k + 1) E' (w_buf (e_w1 e)))) (upd (w_buf (e_w2 e)) k tau) k v ess tau) by (auto; apply upd_at).
        rewrite <- onseg_comp by (intros; apply hh_step_out; auto). f_equal. apply functional_extensionality. intros w. unfold esem, eE, eh. cbn [e_ty e_n e_size e_w1 e_w2 wset w_buf]. rewrite Ht.
        rewrite Nat.add_1_r. cbn [hh_apply]. rewrite <- (Nat.add_1_r k). rewrite vm_id. fold n k. apply hh_apply_ext; [exact Hold|]. intros i Hi. apply upd_lt. auto.
      * intros v. cbn [sem_t e_n]. rewrite <- (proj2 (onseg_move st st0 _ e _ Hmv)). set (w0 := sem_t rest v). cbn [fact_t].
        rewrite <- (onseg_hh st n (view n (unview n (k + 1) E' (w_buf (e_w1 e)))) (upd (w_buf (e_w2 e)) k tau) k _ ess tau) by (auto; apply upd_at).
        rewrite <- onseg_comp by (intros; apply esem_t_out; [split; auto|congruence|auto]). f_equal. apply functional_extensionality. intros w. unfold esem_t, eE, eh. cbn [e_ty e_n e_size e_w1 e_w2 wset w_buf]. rewrite Ht.
        rewrite Nat.add_1_r. cbn [hh_apply_t]. rewrite <- (Nat.add_1_r k). rewrite vm_id. fold n k. f_equal. apply hh_apply_t_ext; [exact Hold|]. intros i Hi. apply upd_lt. auto.
Qed.

(** ** Whole histories *)
Fixpoint facts (cs : list cmd) (v : rvec) : rvec := match cs with [] => v | c :: cs' => fact c (facts cs' v) end.
Fixpoint facts_t (cs : list cmd) (v : rvec) : rvec := match cs with [] => v | c :: cs' => facts_t cs' (fact_t c v) end.
Lemma exec_steps junk cs : forall q q', os_wf q -> exec junk q cs = Ok q' ->
  os_wf q' /\ q_n q' = q_n q /\
  (os_placed q' -> os_placed q /\ Forall (c_in (q_n q)) cs /\ (forall v, sem (q_seq q') v = sem (q_seq q) (facts cs v)) /\ (forall v, sem_t (q_seq q') v = facts_t cs (sem_t (q_seq q) v))).
Proof.
  induction cs as [|c cs IH]; intros q q' Hw H; cbn [exec] in H.
  - injection H as <-. split; [exact Hw|]. split; [reflexivity|]. intros HP. split; [exact HP|]. split; [constructor|]. split; intros; reflexivity.
  - apply bind_inv in H as (q1 & H1 & H). destruct (exec1_step junk q c q1 Hw H1) as (Hw1 & Hn1 & K1). destruct (IH q1 q' Hw1 H) as (Hw2 & Hn2 & K2).
    split; [exact Hw2|]. split; [congruence|]. intros HP. destruct (K2 HP) as (HP1 & HC & HS & HT). destruct (K1 HP1) as (HP0 & Hc & HS1 & HT1).
    split; [exact HP0|]. split; [constructor; [exact Hc|rewrite <- Hn1; exact HC]|]. split; intros v; cbn [facts facts_t]; [rewrite HS, HS1|rewrite HT, HT1]; reflexivity.
Qed.
Lemma exec_app junk cs : forall q cs', exec junk q (cs ++ cs') = do q1 <- exec junk q cs; exec junk q1 cs'.
Proof. induction cs as [|c cs IH]; intros q cs'; [reflexivity|]. cbn [app exec]. destruct (exec1 junk q c); [|reflexivity]. cbn [bind]. apply IH. Qed.
Lemma new_wf n : os_wf (os_new n). Proof. constructor. Qed.

(** every element lies inside the matrix, and the rotations inside their element *)
Definition segments_fit (q : roseq) : Prop :=
  forall st e, In (st, e) (q_seq q) -> (st + e_n e <= q_n q)%nat /\ (e_ty e = OGivens -> e_size e = 0%nat \/ (e_size e < e_n e)%nat).
Lemma fit_placed q : segments_fit q <-> os_placed q.
Proof.
  unfold segments_fit, os_placed. rewrite Forall_forall. split.
  - intros H [st e] Hin. exact (H st e Hin).
  - intros H st e Hin. exact (H (st, e) Hin).
Qed.
Lemma history_apply junk N cs q : exec junk (os_new N) cs = Ok q -> segments_fit q ->
  q_n q = N /\ Forall (c_in N) cs /\ (forall v, os_apply q N v = Ok (facts cs v)) /\ (forall v, os_apply_t q N v = Ok (facts_t cs v)).
Proof.
  intros H HF. apply fit_placed in HF. destruct (exec_steps junk cs _ _ (new_wf N) H) as (Hw & Hn & K). destruct (K HF) as (_ & HC & HS & HT). cbn [os_new q_n q_seq] in *.
  split; [exact Hn|]. split; [exact HC|]. pose proof (os_wf_elem _ Hw) as Hw'. split; intros v.
  - unfold os_apply, guard. rewrite Hn, Nat.eqb_refl. rewrite os_app_sem; auto; [rewrite HS; reflexivity|]. rewrite <- Hn. exact HF.
  - unfold os_apply_t, guard. rewrite Hn, Nat.eqb_refl. rewrite os_app_t_sem; auto; [rewrite HT; reflexivity|]. rewrite <- Hn. exact HF.
Qed.

(** ** Adjoint and inverse *)
Lemma sum_seg N p esz (f : nat -> R) : (p + esz < N)%nat ->
  rsum N (fun i => if (i =? p)%nat then f i else if (p <? i)%nat && (i <=? p + esz)%nat then f i else 0) = f p + rsum esz (fun r => f (S p + r)%nat).
Proof.
  intros H. replace N with (p + (1 + (esz + (N - p - 1 - esz))))%nat by lia. rewrite sum_app. rewrite sum_zero.
  - rewrite Rplus_0_l. rewrite sum_app, sum_S, sum_0. rewrite Nat.add_0_r, Nat.eqb_refl, Rplus_0_l. f_equal. rewrite sum_app. rewrite (sum_zero (N - p - 1 - esz)).
    + rewrite Rplus_0_r. apply sum_ext. intros r Hr. destruct (Nat.eqb_spec (p + (1 + r)) p); [lia|]. rewrite (proj2 (Nat.ltb_lt _ _)) by lia. rewrite (proj2 (Nat.leb_le _ _)) by lia. cbn [andb]. f_equal. lia.
    + intros r Hr. destruct (Nat.eqb_spec (p + (1 + (esz + r))) p); [lia|]. rewrite (proj2 (Nat.leb_gt _ _)) by lia. rewrite andb_false_r. reflexivity.
  - intros i Hi. destruct (Nat.eqb_spec i p); [lia|]. rewrite (proj2 (Nat.ltb_ge _ _)) by lia. reflexivity.
Qed.
Lemma fact_adjoint N c u v : c_in N c -> rdot N (fact c u) v = rdot N u (fact_t c v).
Proof.
  intros Hc. destruct c as [ty n k|p g|p esz ess tau]; cbn [c_in] in Hc; [reflexivity| |].
  - cbn [fact_t fact gc gs]. rewrite !dot_def.
    rewrite (sum_ext N _ (fun i => u i * v i + ((if (i =? p)%nat then (gc g * u p + gs g * u (S p) - u p) * v i else 0) + (if (i =? S p)%nat then (- gs g * u p + gc g * u (S p) - u (S p)) * v i else 0)))).
    2:{ intros i Hi. destruct (Nat.eqb_spec i p) as [->|H1]; [destruct (Nat.eqb_spec p (S p)); [lia|ring]|]. destruct (Nat.eqb_spec i (S p)) as [->|H2]; ring. }
    rewrite (sum_ext N (fun i => u i * _) (fun i => u i * v i + ((if (i =? p)%nat then u i * (gc g * v p - gs g * v (S p) - v p) else 0) + (if (i =? S p)%nat then u i * (gs g * v p + gc g * v (S p) - v (S p)) else 0)))).
    2:{ intros i Hi. destruct (Nat.eqb_spec i p) as [->|H1]; [destruct (Nat.eqb_spec p (S p)); [lia|ring]|]. destruct (Nat.eqb_spec i (S p)) as [->|H2]; ring. }
    rewrite !sum_plus, !sum_delta by lia. ring.
  - cbn [fact_t fact]. cbv zeta. rewrite !dot_def. set (du := u p + rsum esz (fun r => ess r * u (S p + r)%nat)). set (dv := v p + rsum esz (fun r => ess r * v (S p + r)%nat)).
    set (w := fun i => if (i =? p)%nat then 1 else ess (i - p - 1)%nat).
    rewrite (sum_ext N _ (fun i => u i * v i - tau * du * (if (i =? p)%nat then w i * v i else if (p <? i)%nat && (i <=? p + esz)%nat then w i * v i else 0))).
    2:{ intros i Hi. unfold w. destruct (Nat.eqb_spec i p) as [->|H1]; [ring|]. destruct ((p <? i)%nat && _); ring. }
    rewrite (sum_ext N (fun i => u i * _) (fun i => u i * v i - tau * dv * (if (i =? p)%nat then w i * u i else if (p <? i)%nat && (i <=? p + esz)%nat then w i * u i else 0))).
    2:{ intros i Hi. unfold w. destruct (Nat.eqb_spec i p) as [->|H1]; [ring|]. destruct ((p <? i)%nat && _); ring. }
    rewrite !sum_minus, !sum_scal. rewrite (sum_seg N p esz (fun i => w i * v i)) by auto. rewrite (sum_seg N p esz (fun i => w i * u i)) by auto.
    assert (Hw : forall x : rvec, w p * x p + rsum esz (fun r => w (S p + r)%nat * x (S p + r)%nat) = x p + rsum esz (fun r => ess r * x (S p + r)%nat)).
    { intros x. unfold w at 1. rewrite Nat.eqb_refl. f_equal; [ring|]. apply sum_ext. intros r Hr. unfold w. destruct (Nat.eqb_spec (S p + r) p); [lia|]. do 2 f_equal. lia. }
    rewrite !Hw. fold du dv. ring.
Qed.
(** conditions under which the factor is orthogonal *)
Definition orthogonal_factor (c : cmd) : Prop :=
  match c with
  | Prepare _ _ _ => True
  | AddGivens _ g => gc g * gc g + gs g * gs g = 1
  | AddHouseholder _ esz ess tau => tau * (1 + rsum esz (fun r => ess r * ess r)) = 2 \/ tau = 0
  end.
Lemma fact_inverse c v : orthogonal_factor c -> fact_t c (fact c v) = v /\ fact c (fact_t c v) = v.
Proof.
  destruct c as [ty n k|p g|p esz ess tau]; intros H; cbn [orthogonal_factor] in H; [split; reflexivity| |].
  - assert (K1 : forall x, (gc g * gc g + gs g * gs g) * x = x) by (intros; rewrite H; ring).
    split; apply functional_extensionality; intros i; cbn [fact fact_t gc gs]; rewrite !Nat.eqb_refl; destruct (Nat.eqb_spec (S p) p); try lia;
      (destruct (Nat.eqb_spec i p) as [->|]; [transitivity ((gc g * gc g + gs g * gs g) * v p); [ring|apply K1]|destruct (Nat.eqb_spec i (S p)) as [->|]; [transitivity ((gc g * gc g + gs g * gs g) * v (S p)); [ring|apply K1]|reflexivity]]).
  - assert (K : fact (AddHouseholder p esz ess tau) (fact (AddHouseholder p esz ess tau) v) = v); [|split; exact K].
    apply functional_extensionality. intros i. cbn [fact]. cbv zeta. set (d := v p + rsum esz (fun r => ess r * v (S p + r)%nat)). rewrite Nat.eqb_refl.
    set (W := rsum esz (fun r => ess r * ess r)) in *.
    match goal with |- context [v p - tau * d + rsum esz ?f] => assert (Hd : v p - tau * d + rsum esz f = d - tau * d * (1 + W)) end.
    { assert (Ed : d = v p + rsum esz (fun r => ess r * v (S p + r)%nat)) by reflexivity. clearbody d. rewrite (sum_ext esz _ (fun r => ess r * v (S p + r)%nat - tau * d * (ess r * ess r))).
      - rewrite sum_minus, sum_scal. fold W. set (Sv := rsum esz (fun r => ess r * v (S p + r)%nat)) in *. clearbody Sv W. rewrite Ed. ring.
      - intros r Hr. destruct (Nat.eqb_spec (S p + r) p); [lia|]. rewrite (proj2 (Nat.ltb_lt _ _)) by lia. rewrite (proj2 (Nat.leb_le _ _)) by lia. cbn [andb]. replace (S p + r - p - 1)%nat with r by lia. ring. }
    rewrite Hd. assert (K2 : tau * (d + (d - tau * d * (1 + W))) = 0).
    { replace (tau * (d + (d - tau * d * (1 + W)))) with (d * (tau * (2 - tau * (1 + W)))) by ring. destruct H as [H| ->]; [rewrite H|]; ring. }
    destruct (Nat.eqb_spec i p) as [->|H1]; [lra|]. destruct ((p <? i)%nat && (i <=? p + esz)%nat); [|reflexivity].
    replace (v i - tau * ess (i - p - 1)%nat * d - tau * ess (i - p - 1)%nat * (d - tau * d * (1 + W))) with (v i - ess (i - p - 1)%nat * (tau * (d + (d - tau * d * (1 + W))))) by ring. rewrite K2. ring.
Qed.
Lemma facts_adjoint N cs : Forall (c_in N) cs -> forall u v, rdot N (facts cs u) v = rdot N u (facts_t cs v).
Proof.
  induction 1 as [|c cs Hc _ IH]; intros u v; [reflexivity|]. cbn [facts facts_t]. rewrite fact_adjoint by auto. apply IH.
Qed.
Lemma facts_inverse cs : Forall orthogonal_factor cs -> forall v, facts_t cs (facts cs v) = v /\ facts cs (facts_t cs v) = v.
Proof.
  induction 1 as [|c cs Hc _ IH]; intros v; [split; reflexivity|]. cbn [facts facts_t]. split.
  - rewrite (proj1 (fact_inverse c _ Hc)). apply IH.
  - rewrite (proj2 (IH _)). apply fact_inverse. auto.
Qed.

(** ** Single-segment right-hand sides *)
Definition zero_out (a b n : nat) (v : rvec) : Prop := forall i, (i < n)%nat -> (i < a \/ b <= i)%nat -> v i = 0.
Lemma g_step_zero n c s i (v : rvec) : v i = 0 -> v (S i) = 0 -> @g_step Rops n c s i v = v.
Proof.
  intros H1 H2. unfold g_step. rewrite vm_id. apply functional_extensionality. intros k. rops. destruct (Nat.eqb_spec k i) as [->|]; [rewrite H1, H2; ring|]. destruct (Nat.eqb_spec k (S i)) as [->|]; [rewrite H1, H2; ring|reflexivity].
Qed.
Lemma g_down_hint n c s b (v : rvec) cnt : (cnt = 0 \/ cnt < n)%nat -> (forall i, (b <= i)%nat -> (i < n)%nat -> v i = 0) -> @g_down Rops n c s cnt v = g_down n c s (Nat.min cnt b) v.
Proof.
  intros Hc Hz. induction cnt as [|k IH]; [reflexivity|]. destruct (Nat.le_gt_cases (S k) b) as [H|H]; [rewrite Nat.min_l by auto; reflexivity|].
  cbn [g_down]. rewrite g_step_zero by (apply Hz; lia). rewrite IH by lia. f_equal. lia.
Qed.
Lemma g_up_hint n c s (v : rvec) cnt : forall b, (b + cnt = 0 \/ b + cnt < n)%nat -> forall a, (b <= a)%nat -> (forall i, (i <= a)%nat -> (i < n)%nat -> a <> b -> v i = 0) ->
  @g_up Rops n c s b cnt v = g_up n c s a (cnt - (a - b)) v.
Proof.
  induction cnt as [|k IH]; intros b Hc a Ha Hz; [reflexivity|]. destruct (Nat.eq_dec a b) as [->|Hne]; [rewrite Nat.sub_diag, Nat.sub_0_r; reflexivity|].
  cbn [g_up]. rewrite g_step_zero by (apply Hz; lia). rewrite (IH (S b) ltac:(lia) a ltac:(lia)) by (intros; apply Hz; lia). f_equal. lia.
Qed.
Lemma hh_one_hint n (E : rmat) h s m (v : rvec) : (s + m <= n)%nat -> zero_out s (s + m) n v -> @hh_one Rops n E h s m v = hh_one n E h 0 n v.
Proof.
  intros Hn Hz. unfold hh_one. rops. replace (rsum n (fun r => E (0 + r)%nat 0%nat * v (0 + r)%nat)) with (rsum m (fun r => E (s + r)%nat 0%nat * v (s + r)%nat)); [reflexivity|].
  symmetry. replace n with (s + (m + (n - s - m)))%nat by lia. rewrite sum_app, sum_app. rewrite (sum_zero s), (sum_zero (n - s - m)).
  - rewrite Rplus_0_r, Rplus_0_l. reflexivity.
  - intros i Hi. cbn [Nat.add]. rewrite (Hz (s + (m + i))%nat) by lia. ring.
  - intros i Hi. cbn [Nat.add]. rewrite (Hz i) by lia. ring.
Qed.
Lemma elem_apply_hint e (v : rvec) s m : elem_wf e -> (e_ty e = OGivens -> e_size e = 0%nat \/ (e_size e < e_n e)%nat) -> (s + m <= e_n e)%nat -> zero_out s (s + m) (e_n e) v ->
  elem_apply e (e_n e) v s m = Ok (esem e v).
Proof.
  intros Hw HG Hs Hz. rewrite <- elem_apply_sem by auto. unfold elem_apply. cbn [Nat.add]. rewrite Nat.eqb_refl, Nat.leb_refl, (proj2 (Nat.leb_le _ _)) by auto. cbn [andb guard].
  destruct Hw as [Hh Hg Hp]. destruct (e_ty e) eqn:E; [| |reflexivity].
  - destruct (Hh eq_refl) as (H1 & H2 & H3 & H4). rewrite getM_ok by auto. rewrite getV_ok by auto. cbn [bind]. rewrite hh_one_hint by auto. reflexivity.
  - destruct (Hg eq_refl) as (H1 & H2). rewrite !getV_ok by auto. cbn [bind]. specialize (HG eq_refl). rewrite (Nat.min_l (e_size e) (e_n e)) by lia.
    replace ((e_size e =? 0)%nat || (e_size e <? e_n e)%nat) with true by (symmetry; apply orb_true_iff; destruct HG; [left; apply Nat.eqb_eq|right; apply Nat.ltb_lt]; auto).
    replace ((Nat.min (e_size e) (s + m) =? 0)%nat || (Nat.min (e_size e) (s + m) <? e_n e)%nat) with true.
    2:{ symmetry. apply orb_true_iff. destruct HG; [left; apply Nat.eqb_eq; lia|right; apply Nat.ltb_lt; lia]. }
    cbn [guard]. rewrite (g_down_hint _ _ _ (s + m) v (e_size e)); auto.
Qed.
Lemma elem_apply_t_hint e (v : rvec) s m : elem_wf e -> (e_ty e = OGivens -> e_size e = 0%nat \/ (e_size e < e_n e)%nat) -> (s + m <= e_n e)%nat -> zero_out s (s + m) (e_n e) v ->
  elem_apply_t e (e_n e) v s m = Ok (esem_t e v).
Proof.
  intros Hw HG Hs Hz. rewrite <- elem_apply_t_sem by auto. unfold elem_apply_t. cbn [Nat.add]. rewrite Nat.eqb_refl, Nat.leb_refl, (proj2 (Nat.leb_le _ _)) by auto. cbn [andb guard].
  destruct Hw as [Hh Hg Hp]. destruct (e_ty e) eqn:E; [| |reflexivity].
  - destruct (Hh eq_refl) as (H1 & H2 & H3 & H4). rewrite getM_ok by auto. rewrite getV_ok by auto. cbn [bind]. rewrite hh_one_hint by auto. reflexivity.
  - destruct (Hg eq_refl) as (H1 & H2). rewrite !getV_ok by auto. cbn [bind]. specialize (HG eq_refl). cbn [Nat.sub].
    replace ((e_size e <=? 0)%nat || (e_size e <? e_n e)%nat) with true by (symmetry; apply orb_true_iff; destruct HG; [left; apply Nat.leb_le; lia|right; apply Nat.ltb_lt; auto]).
    replace ((e_size e <=? s - 1)%nat || (e_size e <? e_n e)%nat) with true by (symmetry; apply orb_true_iff; destruct HG; [left; apply Nat.leb_le; lia|right; apply Nat.ltb_lt; auto]).
    cbn [guard]. f_equal. rewrite Nat.sub_0_r. symmetry.
    rewrite (g_up_hint _ _ _ v (e_size e) 0 HG (s - 1) ltac:(lia)); [rewrite Nat.sub_0_r; reflexivity|]. intros i Hi1 Hi2 Hi3. apply Hz; lia.
Qed.
Lemma hh_step_zero n (E : rmat) h k (v : rvec) : (k < n)%nat -> (forall i, (i < n)%nat -> v i = 0) -> @hh_step Rops n E h k v = v.
Proof.
  intros Hk Hz. apply functional_extensionality. intros i. unfold hh_step. destruct (n - k =? 1)%nat; rops.
  - unfold upd. destruct (Nat.eqb_spec i k) as [->|]; [rewrite Hz by auto; ring|reflexivity].
  - destruct (Reqb (h k) 0); [reflexivity|]. rewrite vm_at. cbv zeta. rewrite sum_zero by (intros r Hr; rewrite (Hz (k + 1 + r)%nat) by lia; ring). rewrite (Hz k) by auto.
    destruct (Nat.eqb_spec i k) as [->|]; [rewrite Hz by auto; ring|]. destruct ((k <? i)%nat && (i <? n)%nat); [ring|reflexivity].
Qed.
Lemma esem_zero e (v : rvec) : elem_wf e -> (e_ty e = OGivens -> e_size e = 0%nat \/ (e_size e < e_n e)%nat) -> (forall i, (i < e_n e)%nat -> v i = 0) -> esem e v = v /\ esem_t e v = v.
Proof.
  intros [Hh Hg Hp] HG Hz. unfold esem, esem_t. destruct (e_ty e) eqn:E; [| |split; reflexivity].
  - destruct (Hh eq_refl) as (H1 & _). clear Hh Hg Hp HG. revert H1. generalize (e_size e) as m. intros m Hm. split; induction m as [|k IH]; auto; cbn [hh_apply hh_apply_t].
    + rewrite hh_step_zero by (auto; lia). apply IH; lia.
    + rewrite IH by lia. apply hh_step_zero; auto.
  - specialize (HG eq_refl). split.
    + rewrite (g_down_hint _ _ _ 0) by (auto; intros; apply Hz; lia). rewrite Nat.min_0_r. reflexivity.
    + destruct (e_size e) as [|k] eqn:Ek; [reflexivity|]. rewrite (g_up_hint (e_n e) _ _ v (S k) 0 ltac:(lia) (S k) ltac:(lia)) by (intros; apply Hz; lia). rewrite Nat.sub_0_r, Nat.sub_diag. reflexivity.
Qed.
Fixpoint semf (f : relem -> rvec -> rvec) (l : list (nat * relem)) (v : rvec) : rvec :=
  match l with [] => v | (st, e) :: l' => semf f l' (onseg st (e_n e) (f e) v) end.
Lemma sem_semf l : forall v, sem l v = semf esem l v.
Proof. induction l as [|[st e] l IH]; intros v; [reflexivity|]. cbn [sem semf]. apply IH. Qed.
Lemma semf_app f l1 : forall l2 v, semf f (l1 ++ l2) v = semf f l2 (semf f l1 v).
Proof. induction l1 as [|[st e] l1 IH]; intros l2 v; [reflexivity|]. cbn [app semf]. apply IH. Qed.
Lemma sem_t_semf l : forall v, sem_t l v = semf esem_t (rev l) v.
Proof. induction l as [|[st e] l IH]; intros v; [reflexivity|]. cbn [sem_t rev]. rewrite semf_app. cbn [semf]. rewrite IH. reflexivity. Qed.
Lemma os_nz_sem N app (f : relem -> rvec -> rvec) l :
  (forall e v s m, elem_wf e -> (e_ty e = OGivens -> e_size e = 0%nat \/ (e_size e < e_n e)%nat) -> (s + m <= e_n e)%nat -> zero_out s (s + m) (e_n e) v -> app e (e_n e) v s m = Ok (f e v)) ->
  (forall e v, elem_wf e -> (e_ty e = OGivens -> e_size e = 0%nat \/ (e_size e < e_n e)%nat) -> (forall i, (i < e_n e)%nat -> v i = 0) -> f e v = v) ->
  Forall (fun p => elem_wf (snd p)) l -> Forall (placed N) l -> forall a b v, (a <= b)%nat -> (b <= N)%nat -> zero_out a b N v -> os_nz N app l a b v = Ok (semf f l v).
Proof.
  intros Happ Hzero Hw. induction Hw as [|[st e] l Hw1 _ IH]; intros Hp a b v Hab Hb Hz; [reflexivity|]. inversion Hp as [|? ? [H1 H2] Hp']; subst. cbn [fst snd] in *. cbn [os_nz semf].
  destruct ((b <=? st)%nat || (st + e_n e <? a)%nat) eqn:Hskip.
  - rewrite IH by auto. do 2 f_equal. symmetry. apply functional_extensionality. intros i. unfold onseg. destruct (Nat.leb_spec st i); cbn [andb]; [|reflexivity]. destruct (Nat.ltb_spec i (st + e_n e)); [|reflexivity].
    rewrite Hzero; auto; [f_equal; lia|]. intros k Hk. apply Hz; [lia|]. apply orb_true_iff in Hskip as [Hs|Hs]; [apply Nat.leb_le in Hs|apply Nat.ltb_lt in Hs]; lia.
  - apply orb_false_iff in Hskip as [Hs1 Hs2]. apply Nat.leb_gt in Hs1. apply Nat.ltb_ge in Hs2. set (s := (a - st)%nat). set (n := Nat.min (e_n e) (b - st)).
    assert (Hsn : (s <= n)%nat) by lia. rewrite (proj2 (Nat.leb_le _ _)) by auto. cbn [guard].
    assert (Hseg : zero_out s (s + (n - s)) (e_n e) (fun k => v (st + k)%nat)). { intros k Hk Hor. apply Hz; lia. }
    unfold on_segment, guard. rewrite (proj2 (Nat.leb_le _ _)) by auto. rewrite Happ by (auto; lia). cbn [bind]. rewrite vm_id.
    change (fun i : nat => if (st <=? i)%nat && (i <? st + e_n e)%nat then f e (fun k : nat => v (st + k)%nat) (i - st)%nat else v i) with (onseg st (e_n e) (f e) v).
    apply IH; auto; try lia. intros i Hi Hor. unfold onseg. destruct (Nat.leb_spec st i); cbn [andb]; [|apply Hz; lia]. destruct (Nat.ltb_spec i (st + e_n e)); [lia|]. apply Hz; lia.
Qed.
Definition full_of (z : snz Rops) (out : rvec) : rvec :=
  fun i => if (i <? z_start z)%nat then 0 else if (i <? z_end z)%nat then z_v z (i - z_start z)%nat else if (i <? z_size z)%nat then 0 else out i.
Lemma nz_apply q out z : os_wf q -> os_placed q -> (z_end z <= z_size z)%nat -> z_size z = q_n q ->
  os_apply_nz q (q_n q) out z = Ok (sem (q_seq q) (full_of z out)) /\ os_apply_t_nz q (q_n q) out z = Ok (sem_t (q_seq q) (full_of z out)).
Proof.
  intros Hw HP Hz Hn. pose proof (os_wf_elem _ Hw) as Hw'. unfold os_apply_nz, os_apply_t_nz, toFullVector. rewrite Hn, Nat.eqb_refl. cbn [andb guard bind]. rewrite vm_id. fold (z_end z).
  replace (fun i : nat => if (i <? z_start z)%nat then zero Rops else if (i <? z_end z)%nat then z_v z (i - z_start z)%nat else if (i <? q_n q)%nat then zero Rops else out i) with (full_of z out)
    by (unfold full_of; rewrite Hn; reflexivity).
  assert (Hzero : zero_out (z_start z) (z_end z) (q_n q) (full_of z out)).
  { intros i Hi Hor. unfold full_of. destruct (Nat.ltb_spec i (z_start z)); [reflexivity|]. destruct (Nat.ltb_spec i (z_end z)); [lia|]. rewrite (proj2 (Nat.ltb_lt _ _)) by lia. reflexivity. }
  assert (Hle : (z_start z <= z_end z)%nat) by (unfold z_end; lia). split.
  - rewrite (os_nz_sem _ _ esem); auto; try lia; [rewrite sem_semf; reflexivity| |].
    + intros; apply elem_apply_hint; auto.
    + intros; apply esem_zero; auto.
  - rewrite (os_nz_sem _ _ esem_t); auto; try lia; [rewrite sem_t_semf; reflexivity| | | |].
    + intros; apply elem_apply_t_hint; auto.
    + intros; apply esem_zero; auto.
    + apply Forall_rev. auto.
    + apply Forall_rev. auto.
Qed.

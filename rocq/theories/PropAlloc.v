(** C78: the dense solvers allocate memory for their own members only when a problem is larger than all the previous ones. *)
From Coq Require Import List Arith ZArith Lia Bool.
From Verif Require Import Base ActiveSet ActiveSetProofs Alloc.
Import ListNotations.

(** ** Specification: the largest problem met *)
Fixpoint vars_seen (l : list event) : nat :=
  match l with [] => 0 | Resize n _ _ :: l => Nat.max n (vars_seen l) | _ :: l => vars_seen l end.
(** general constraints plus bounds *)
Fixpoint cstrs_seen (l : list event) : nat :=
  match l with [] => 0 | Resize n nc b :: l => Nat.max (nc + (if b then n else 0)) (cstrs_seen l) | _ :: l => cstrs_seen l end.
Definition grows (grow : nat -> nat -> nat) : Prop := forall c w, w <= grow c w.

(** ** Invariant: [N], [M] are the largest sizes so far *)
Record held (e : bool) (N M : nat) (o : obj) : Prop := {
  h_good : good (o_A o); h_n : o_n o <= N; h_m : nbAll (o_A o) <= M;
  h_x : o_x o = N; h_z : o_z o = N; h_d : o_d o = N; h_J : o_J o = N * N; h_R : o_R o = N * N;
  h_e : if e then o_tmp o = N /\ o_h o = N /\ o_bact o = N else o_tmp o = 0 /\ o_h o = 0 /\ o_bact o = 0;
  h_u : o_u o = M; h_r : o_r o = M; h_st : M <= o_status o; h_ac : M <= o_active o }.
Lemma ws_max c s : ws_resize c s = Nat.max c s.
Proof. unfold ws_resize. destruct (Nat.ltb_spec c s); lia. Qed.
Lemma ws_none c s : ws_alloc c s = 0 <-> s <= c.
Proof. unfold ws_alloc. destruct (Nat.ltb_spec c s); split; intros; try lia. Qed.
Lemma v_none c w : v_alloc c w = 0 <-> w <= c.
Proof. unfold v_alloc. destruct (Nat.ltb_spec c w); split; intros; try lia. Qed.
Lemma v_fits grow c w : grows grow -> w <= v_fit grow c w /\ c <= v_fit grow c w.
Proof. intros HG. unfold v_fit. specialize (HG c w). destruct (Nat.ltb_spec c w); lia. Qed.
Lemma sq_max a b : Nat.max (a * a) (b * b) = Nat.max a b * Nat.max a b.
Proof. destruct (Nat.max_spec a b) as [[H ->]|[H ->]]; nia. Qed.
Lemma held_resize grow e N M o n nc (b : bool) : grows grow -> held e N M o ->
  let m := nc + (if b then n else 0) in
  held e (Nat.max N n) (Nat.max M m) (o_resize grow e o n nc b) /\ (o_allocs (o_resize grow e o n nc b) = o_allocs o <-> n <= N /\ m <= M) /\ o_allocs o <= o_allocs (o_resize grow e o n nc b).
Proof.
  intros HG [Hg Hn Hm Hx Hz Hd HJ HR He Hu Hr Hs Ha] m.
  assert (S1 : exists o1, o_resize_ e o n = o1 /\ o_n o1 = o_n o /\ o_A o1 = o_A o /\ o_status o1 = o_status o /\ o_active o1 = o_active o /\ o_x o1 = N /\ o_z o1 = N /\ o_u o1 = M /\ o_r o1 = M /\
    o_d o1 = Nat.max N n /\ o_J o1 = Nat.max N n * Nat.max N n /\ o_R o1 = Nat.max N n * Nat.max N n /\
    (if e then o_tmp o1 = Nat.max N n /\ o_h o1 = Nat.max N n /\ o_bact o1 = Nat.max N n else o_tmp o1 = 0 /\ o_h o1 = 0 /\ o_bact o1 = 0) /\ (o_allocs o1 = o_allocs o <-> n <= N) /\ o_allocs o <= o_allocs o1).
  { eexists. split; [reflexivity|]. unfold o_resize_. destruct (Nat.eqb_spec n (o_n o)) as [E|E].
    - rewrite Nat.max_l by lia. repeat split; auto; lia.
    - cbn [o_n o_A o_status o_active o_x o_z o_u o_r o_d o_J o_R o_tmp o_h o_bact o_allocs]. rewrite !ws_max, Hd, HJ, HR, !sq_max. pose proof (ws_none N n) as W. pose proof (ws_none (N * N) (n * n)) as W2.
      assert (W3 : n * n <= N * N <-> n <= N) by (split; intros; nia).
      destruct e; [destruct He as (E1 & E2 & E3); rewrite E1, E2, E3|]; repeat split; auto; try lia. }
  destruct S1 as (o1 & S1 & T1 & T2 & T3 & T4 & T5 & T6 & T7 & T8 & T9 & T10 & T11 & T12 & T13 & T14).
  unfold o_resize. rewrite S1. unfold o_resize_p. rewrite T1.
  set (o2 := if n =? o_n o then o1 else _).
  assert (S2 : o_n o2 = n /\ o_A o2 = o_A o /\ o_status o2 = o_status o /\ o_active o2 = o_active o /\ o_x o2 = Nat.max N n /\ o_z o2 = Nat.max N n /\ o_u o2 = M /\ o_r o2 = M /\
    o_d o2 = Nat.max N n /\ o_J o2 = Nat.max N n * Nat.max N n /\ o_R o2 = Nat.max N n * Nat.max N n /\
    (if e then o_tmp o2 = Nat.max N n /\ o_h o2 = Nat.max N n /\ o_bact o2 = Nat.max N n else o_tmp o2 = 0 /\ o_h o2 = 0 /\ o_bact o2 = 0) /\ (o_allocs o2 = o_allocs o <-> n <= N) /\ o_allocs o <= o_allocs o2).
  { subst o2. destruct (Nat.eqb_spec n (o_n o)) as [E|E].
    - rewrite Nat.max_l in * by lia. repeat split; auto; try lia.
    - cbn [o_n o_A o_status o_active o_x o_z o_u o_r o_d o_J o_R o_tmp o_h o_bact o_allocs]. rewrite !ws_max, T5, T6. pose proof (ws_none N n) as W. repeat split; auto; try lia. }
  clearbody o2. destruct S2 as (U1 & U2 & U3 & U4 & U5 & U6 & U7 & U8 & U9 & U10 & U11 & U12 & U13 & U14). cbv zeta. rewrite U2. fold m.
  set (o3 := if m =? nbAll (o_A o) then o2 else _).
  assert (S3 : o_n o3 = n /\ o_A o3 = o_A o /\ o_status o3 = o_status o /\ o_active o3 = o_active o /\ o_x o3 = Nat.max N n /\ o_z o3 = Nat.max N n /\ o_u o3 = Nat.max M m /\ o_r o3 = Nat.max M m /\
    o_d o3 = Nat.max N n /\ o_J o3 = Nat.max N n * Nat.max N n /\ o_R o3 = Nat.max N n * Nat.max N n /\
    (if e then o_tmp o3 = Nat.max N n /\ o_h o3 = Nat.max N n /\ o_bact o3 = Nat.max N n else o_tmp o3 = 0 /\ o_h o3 = 0 /\ o_bact o3 = 0) /\ (o_allocs o3 = o_allocs o <-> n <= N /\ m <= M) /\ o_allocs o <= o_allocs o3).
  { subst o3. destruct (Nat.eqb_spec m (nbAll (o_A o))) as [E|E].
    - rewrite (Nat.max_l M) by lia. repeat split; auto; try lia.
    - cbn [o_n o_A o_status o_active o_x o_z o_u o_r o_d o_J o_R o_tmp o_h o_bact o_allocs]. rewrite !ws_max, U7, U8. pose proof (ws_none M m) as W. repeat split; auto; try lia. }
  clearbody o3. destruct S3 as (V1 & V2 & V3 & V4 & V5 & V6 & V7 & V8 & V9 & V10 & V11 & V12 & V13 & V14). rewrite V2.
  destruct ((nc =? a_nc (o_A o)) && ((if b then n else 0) =? a_nb (o_A o))) eqn:EQ.
  - apply andb_prop in EQ as [Q1 Q2]. apply Nat.eqb_eq in Q1, Q2. assert (Em : m = nbAll (o_A o)) by (unfold m, nbAll; lia). rewrite (Nat.max_l M m) in * by lia.
    split; [|split; [exact V13|exact V14]]. split; try (rewrite ?V2, ?V3, ?V4; auto; lia). 
  - unfold o_asresize. cbn [o_n o_A o_status o_active o_x o_z o_u o_r o_d o_J o_R o_tmp o_h o_bact o_allocs]. fold m. rewrite V3, V4.
    pose proof (v_none (o_status o) m) as W1. pose proof (v_none (o_active o) m) as W2. pose proof (v_fits grow (o_status o) m HG) as F1. pose proof (v_fits grow (o_active o) m HG) as F2.
    split; [|split; [|lia]].
    + split; cbn [o_n o_A o_status o_active o_x o_z o_u o_r o_d o_J o_R o_tmp o_h o_bact o_allocs]; auto; try lia.
      * apply good_resize.
      * unfold nbAll. cbn [as_resize as_reset a_nc a_nb]. fold m. lia.
    + lia.
Qed.
Lemma held_new e : held e 0 0 o_new.
Proof. split; cbn; auto; try lia; [apply good_new|destruct e; auto]. Qed.
Lemma good_length A : good A -> length (a_active A) <= nbAll A.
Proof.
  intros (HC & _ & _). destruct HC as [C1 C2 C3 C4]. unfold nbAll. rewrite <- C1. rewrite <- (seq_length (length (a_status A)) 0). apply (NoDup_incl_length C2).
  intros i Hi. apply C3 in Hi as (s & E & _). apply in_seq. assert (i < length (a_status A)) by (apply nth_error_Some; congruence). lia.
Qed.
Lemma activate_sizes A i s A' : as_activate A i s = Ok A' -> nbAll A' = nbAll A /\ length (a_active A') = S (length (a_active A)).
Proof.
  unfold as_activate, guard. destruct (i <? nbAll A); [|discriminate]. destruct (nth_error (a_status A) i) as [[]|]; try discriminate. destruct (kind_ok _ _ _); [|discriminate].
  destruct A, s; cbn; intros H; inversion H; subst; cbn; rewrite app_length; cbn; split; try reflexivity; lia.
Qed.
Lemma deactivate_sizes A k A' : as_deactivate A k = Ok A' -> nbAll A' = nbAll A.
Proof.
  unfold as_deactivate. destruct (nth_error (a_active A) k); [|discriminate]. destruct (nth_error (a_status A) _) as [s|]; [|discriminate]. destruct A, s; cbn; intros H; inversion H; subst; reflexivity.
Qed.
Lemma held_with e N M o A c al : held e N M o -> good A -> nbAll A = nbAll (o_A o) -> M <= c -> held e N M (with_A o A c al).
Proof. intros [Hg Hn Hm Hx Hz Hd HJ HR He Hu Hr Hs Ha] HA E HC. split; cbn; auto. lia. Qed.
(** one event *)
Lemma held_step grow e N M o v o' : grows grow -> held e N M o -> o_step grow e o v = Ok o' ->
  held e (Nat.max N (vars_seen [v])) (Nat.max M (cstrs_seen [v])) o' /\ o_allocs o <= o_allocs o' /\ (o_allocs o' = o_allocs o <-> vars_seen [v] <= N /\ cstrs_seen [v] <= M).
Proof.
  intros HG HH E. destruct v as [n nc b|i s|k|]; cbn [o_step vars_seen cstrs_seen] in *; rewrite ?Nat.max_0_r.
  - injection E as <-. destruct (held_resize grow e N M o n nc b HG HH) as (H1 & H2 & H3). auto.
  - destruct (as_activate (o_A o) i s) as [A|] eqn:EA; [|discriminate]. cbn [bind] in E. injection E as <-. destruct (activate_sizes _ _ _ _ EA) as [Z1 Z2]. pose proof (good_activate _ _ _ _ (h_good _ _ _ _ HH) EA) as GA.
    pose proof (good_length A GA) as GL. pose proof (h_m _ _ _ _ HH) as HM. pose proof (h_ac _ _ _ _ HH) as HAc. assert (W : v_alloc (o_active o) (S (length (a_active (o_A o)))) = 0) by (apply v_none; lia).
    split; [|cbn [with_A o_allocs]; lia]. apply held_with; auto. pose proof (v_fits grow (o_active o) (S (length (a_active (o_A o)))) HG). lia.
  - destruct (as_deactivate (o_A o) k) as [A|] eqn:EA; [|discriminate]. cbn [bind] in E. injection E as <-. pose proof (good_deactivate _ _ _ (h_good _ _ _ _ HH) EA) as GA. split; [|cbn [with_A o_allocs]; lia].
    apply held_with; auto; [apply (deactivate_sizes _ _ _ EA)|apply (h_ac _ _ _ _ HH)].
  - injection E as <-. split; [|cbn [with_A o_allocs]; lia]. apply held_with; auto; [|apply (h_ac _ _ _ _ HH)]. apply good_reset. destruct (h_good _ _ _ _ HH) as (HC & _). destruct HC as [C1 _ _ _]. exact C1.
Qed.
Lemma held_run grow e l : grows grow -> forall N M o o', held e N M o -> o_run grow e o l = Ok o' -> 
  held e (Nat.max N (vars_seen l)) (Nat.max M (cstrs_seen l)) o' /\ o_allocs o <= o_allocs o' /\ (vars_seen l <= N -> cstrs_seen l <= M -> o_allocs o' = o_allocs o).
Proof.
  intros HG. induction l as [|v l IH]; intros N M o o' HH E; cbn [o_run] in E.
  - injection E as <-. cbn [vars_seen cstrs_seen]. rewrite !Nat.max_0_r. auto.
  - destruct (o_step grow e o v) as [o1|] eqn:E1; [|discriminate]. cbn [bind] in E. destruct (held_step _ _ _ _ _ _ _ HG HH E1) as (H1 & H2 & H3). destruct (IH _ _ _ _ H1 E) as (K1 & K2 & K3).
    assert (X : vars_seen (v :: l) = Nat.max (vars_seen [v]) (vars_seen l) /\ cstrs_seen (v :: l) = Nat.max (cstrs_seen [v]) (cstrs_seen l)) by (destruct v; cbn [vars_seen cstrs_seen]; lia). destruct X as [-> ->].
    rewrite !Nat.max_assoc. split; [exact K1|]. split; [lia|]. intros G1 G2. rewrite K3 by lia. apply H3. lia.
Qed.

(** ** Theorems *)
(** After any history, resize (called by solve) allocates exactly when the problem has more variables, or more constraints
    counting the bounds, than every problem before. *)
Theorem C78_when_allocated : forall grow e l o n nc b, grows grow -> o_run grow e o_new l = Ok o ->
  (o_allocs (o_resize grow e o n nc b) = o_allocs o <-> n <= vars_seen l /\ nc + (if b then n else 0) <= cstrs_seen l).
Proof.
  intros grow e l o n nc b HG E. destruct (held_run grow e l HG 0 0 o_new o (held_new e) E) as (H1 & _). cbn [Nat.max] in H1. exact (proj1 (proj2 (held_resize grow e _ _ o n nc b HG H1))).
Qed.
(** The operations of the active set never allocate, whatever was done before *)
Theorem C78_active_set : forall grow e l o v o', grows grow -> o_run grow e o_new l = Ok o -> o_step grow e o v = Ok o' -> (forall n nc b, v <> Resize n nc b) -> o_allocs o' = o_allocs o.
Proof.
  intros grow e l o v o' HG E E1 Hv. destruct (held_run grow e l HG 0 0 o_new o (held_new e) E) as (H1 & _). apply (held_step grow e _ _ o v o' HG H1 E1). destruct v; cbn [vars_seen cstrs_seen]; try lia. exfalso. eapply Hv. reflexivity.
Qed.
(** An object constructed for n variables, nc constraints and bounds (or not) then solves without allocating any sequence of
    problems not larger than that (test "Multiple uses", which forbids Eigen to allocate). *)
Theorem C78_realtime : forall grow e n nc b l o, grows grow -> o_run grow e o_new (Resize n nc b :: l) = Ok o ->
  (forall n' nc' b', In (Resize n' nc' b') l -> n' <= n /\ nc' + (if b' then n' else 0) <= nc + (if b then n else 0)) ->
  o_allocs o = o_allocs (o_resize grow e o_new n nc b).
Proof.
  intros grow e n nc b l o HG E HL. cbn [o_run o_step bind] in E. pose proof (proj1 (held_resize grow e 0 0 o_new n nc b HG (held_new e))) as H1. cbn [Nat.max] in H1.
  apply (held_run grow e l HG _ _ _ _ H1 E).
  - clear E H1. induction l as [|v l IH]; [cbn; lia|]. assert (IH' : vars_seen l <= n) by (apply IH; intros; apply HL; right; auto). destruct v; cbn [vars_seen]; auto. destruct (HL _ _ _ (or_introl eq_refl)). lia.
  - clear E H1. induction l as [|v l IH]; [cbn; lia|]. assert (IH' : cstrs_seen l <= nc + (if b then n else 0)) by (apply IH; intros; apply HL; right; auto). destruct v; cbn [cstrs_seen]; auto. destruct (HL _ _ _ (or_introl eq_refl)). lia.
Qed.
(** What an object holds after any history, and that it is enough for the current problem: one number per variable and per
    constraint of the largest problem, two square matrices. *)
Theorem C78_memory : forall grow e l o, grows grow -> o_run grow e o_new l = Ok o ->
  let N := vars_seen l in let M := cstrs_seen l in
  o_x o = N /\ o_z o = N /\ o_d o = N /\ o_J o = N * N /\ o_R o = N * N /\ o_u o = M /\ o_r o = M /\ M <= o_status o /\ M <= o_active o /\ o_n o <= N /\ nbAll (o_A o) <= M /\ length (a_active (o_A o)) <= M.
Proof.
  intros grow e l o HG E. destruct (held_run grow e l HG 0 0 o_new o (held_new e) E) as (H1 & _). cbn [Nat.max] in H1. pose proof (good_length _ (h_good _ _ _ _ H1)). destruct H1. cbv zeta. repeat split; auto. lia.
Qed.
(** the sizes of the test: 5 variables, 8 constraints and bounds (9 allocations at construction, none later); then a problem
    with bounds solved by an object constructed without *)
Example C78_example :
  (exists o, o_run Nat.max false o_new [Resize 5 8 true; Resize 5 0 false; Resize 5 2 false; Activate 0 EQUALITY; Activate 1 EQUALITY; Resize 5 8 true; Activate 3 LOWER; Activate 9 UPPER_BOUND; Deactivate 0; Reset] = Ok o /\
             o_allocs o = 9 /\ o_allocs (o_resize Nat.max false o_new 5 8 true) = 9) /\
  (exists o, o_run Nat.max false o_new [Resize 5 8 false] = Ok o /\ o_allocs (o_resize Nat.max false o 5 8 true) <> o_allocs o).
Proof.
  split.
  - eexists. split; [vm_compute; reflexivity|]. split; vm_compute; reflexivity.
  - eexists. split; [vm_compute; reflexivity|]. vm_compute. discriminate.
Qed.

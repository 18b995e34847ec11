(** C75: the sizes computed in [int].  The rest of the development uses natural numbers for sizes; these theorems
    say exactly for which sizes that is what the code computes, and what happens beyond. *)
From Coq Require Import List ZArith Lia Bool.
From Verif Require Import Base ActiveSet Num Solver IntSize.
Import ListNotations.
Local Open Scope Z_scope.

(** * Specification *)
(** The sizes of an object of the model *)
Definition sizes_of {S} (s : sol S) : isizes :=
  IS (Z.of_nat (s_n s)) (Z.of_nat (w_size (s_x s))) (Z.of_nat (w_size (s_z s))) (Z.of_nat (w_size (s_u s))) (Z.of_nat (w_size (s_r s)))
     (Z.of_nat (w_size (s_d s))) (Z.of_nat (w_size (s_J s))) (Z.of_nat (w_size (s_R s))) (Z.of_nat (a_nc (s_A s))) (Z.of_nat (a_nb (s_A s))).
(** A request resize(nbVar, nbCstr, useBounds); every solve makes one *)
Record request := Req { q_n : nat; q_m : nat; q_b : bool }.
Definition in_range (q : request) : Prop :=
  Z.of_nat (q_n q) * Z.of_nat (q_n q) < 2 ^ 31 /\ Z.of_nat (q_m q) + (if q_b q then Z.of_nat (q_n q) else 0) < 2 ^ 31.

(** * Proofs *)
Lemma fits_in z : 0 <= z <= int_max -> fits_int z = true.
Proof. unfold fits_int, int_max, int_min. intros. apply andb_true_intro. split; apply Z.leb_le; lia. Qed.
Lemma wrap_in z : 0 <= z <= int_max -> wrap z = z.
Proof. unfold wrap, int_max. intros. rewrite Z.mod_small by lia. lia. Qed.
Lemma int_in m z : 0 <= z <= int_max -> int_result m z = Ok z.
Proof. intros H. destruct m; cbn [int_result]; [rewrite fits_in by auto; reflexivity|rewrite wrap_in by auto; reflexivity]. Qed.
Lemma w_resize_z {S} (junk : vec S) (w : work S) k : Z.of_nat (w_size (w_resize junk w k)) = iw_resize (Z.of_nat (w_size w)) (Z.of_nat k).
Proof. unfold w_resize, iw_resize. destruct (Nat.ltb_spec (w_size w) k), (Z.ltb_spec (Z.of_nat (w_size w)) (Z.of_nat k)); cbn [w_size]; try lia. Qed.
Lemma eqb_z a b : (Z.of_nat a =? Z.of_nat b) = (a =? b)%nat.
Proof. destruct (Nat.eqb_spec a b), (Z.eqb_spec (Z.of_nat a) (Z.of_nat b)); auto; lia. Qed.

Lemma resize_exact {S} m junk (s : sol S) q : Z.of_nat (a_nc (s_A s)) + Z.of_nat (a_nb (s_A s)) <= int_max -> in_range q ->
  iresize m (sizes_of s) (Z.of_nat (q_n q)) (Z.of_nat (q_m q)) (q_b q) = Ok (sizes_of (resize junk s (q_n q) (q_m q) (q_b q))).
Proof.
  intros HA [H1 H2]. destruct q as [n k b]. cbn [q_n q_m q_b] in *. change (2 ^ 31) with (int_max + 1) in *.
  unfold iresize, resize.
  assert (E1 : iresize_d m (sizes_of s) (Z.of_nat n) = Ok (sizes_of (resize_d junk s n))).
  { unfold iresize_d, resize_d. cbn [sizes_of i_n]. rewrite eqb_z. destruct (Nat.eqb_spec n (s_n s)); [reflexivity|].
    unfold iw_resize2, imul. rewrite int_in by nia. cbn [bind sizes_of i_x i_z i_u i_r i_d i_J i_R i_nc i_nb i_n].
    f_equal. unfold sizes_of. cbn [Solver.set_R Solver.set_J Solver.set_d s_n s_A s_x s_z s_u s_r s_d s_J s_R].
    rewrite !w_resize_z, Nat2Z.inj_mul. reflexivity. }
  rewrite E1. cbn [bind]. assert (EA : s_A (resize_d junk s n) = s_A s) by (unfold resize_d; destruct (n =? s_n s)%nat; reflexivity).
  set (t := resize_d junk s n) in *. clearbody t. clear E1. rewrite <- EA in HA.
  unfold iresize_p, resize_p. cbn zeta.
  set (t1 := if (n =? s_n t)%nat then t else _).
  assert (E2 : (if Z.of_nat n =? i_n (sizes_of t) then sizes_of t else
     IS (Z.of_nat n) (iw_resize (i_x (sizes_of t)) (Z.of_nat n)) (iw_resize (i_z (sizes_of t)) (Z.of_nat n)) (i_u (sizes_of t)) (i_r (sizes_of t)) (i_d (sizes_of t)) (i_J (sizes_of t)) (i_R (sizes_of t)) (i_nc (sizes_of t)) (i_nb (sizes_of t)))
     = sizes_of t1 /\ s_A t1 = s_A t).
  { unfold t1. cbn [sizes_of i_n]. rewrite eqb_z. destruct (n =? s_n t)%nat; [auto|]. split; [|reflexivity].
    unfold sizes_of. cbn [s_n s_A s_x s_z s_u s_r s_d s_J s_R i_x i_z i_u i_r i_d i_J i_R i_nc i_nb]. rewrite !w_resize_z. reflexivity. }
  destruct E2 as [-> EB]. clearbody t1. rewrite <- EB in HA. clear EA EB.
  assert (Eb : (if b then Z.of_nat n else 0) = Z.of_nat (if b then n else 0%nat)) by (destruct b; reflexivity).
  rewrite Eb in *. set (nb := if b then n else 0%nat) in *. clearbody nb.
  unfold iadd. rewrite int_in by lia. cbn [bind]. rewrite int_in by (cbn [sizes_of i_nc i_nb]; lia). cbn [bind].
  cbn [sizes_of i_nc i_nb]. replace (Z.of_nat k + Z.of_nat nb) with (Z.of_nat (k + nb)) by lia.
  replace (Z.of_nat (a_nc (s_A t1)) + Z.of_nat (a_nb (s_A t1))) with (Z.of_nat (nbAll (s_A t1))) by (unfold nbAll; lia).
  rewrite eqb_z. f_equal.
  set (t2 := if (k + nb =? nbAll (s_A t1))%nat then t1 else _).
  match goal with |- context [if (k + nb =? _)%nat then ?a else ?b] => assert (E3 : (if (k + nb =? nbAll (s_A t1))%nat then a else b) = sizes_of t2 /\ s_A t2 = s_A t1) end.
  { unfold t2. destruct (k + nb =? nbAll (s_A t1))%nat; [auto|]. split; [|reflexivity].
    unfold sizes_of. cbn [Solver.set_r Solver.set_u s_n s_A s_x s_z s_u s_r s_d s_J s_R i_n i_x i_z i_u i_r i_d i_J i_R i_nc i_nb].
    rewrite !w_resize_z. reflexivity. }
  destruct E3 as [E3 EB]. rewrite E3. cbn [sizes_of i_nc i_nb]. rewrite !eqb_z.
  destruct ((k =? a_nc (s_A t2))%nat && (nb =? a_nb (s_A t2))%nat); reflexivity.
Qed.

Lemma resize_A {S} junk (s : sol S) n k b : a_nc (s_A (resize junk s n k b)) = k /\ a_nb (s_A (resize junk s n k b)) = (if b then n else 0%nat).
Proof.
  unfold resize, resize_p. cbn zeta. set (t := resize_d junk s n). clearbody t. set (nb := if b then n else 0%nat).
  set (t1 := if (n =? s_n t)%nat then t else _). clearbody t1. set (t2 := if (k + nb =? nbAll (s_A t1))%nat then t1 else _). clearbody t2.
  destruct (Nat.eqb_spec k (a_nc (s_A t2))), (Nat.eqb_spec nb (a_nb (s_A t2))); cbn [andb]; try (split; congruence); destruct t2; split; reflexivity.
Qed.

(** * C75 *)
(** Within range, both readings of [int] give the sizes of the model, after any sequence of requests. *)
Fixpoint iresizes (m : mode) (s : isizes) (qs : list request) : res isizes :=
  match qs with
  | [] => Ok s
  | q :: qs => do s <- iresize m s (Z.of_nat (q_n q)) (Z.of_nat (q_m q)) (q_b q); iresizes m s qs
  end.
Theorem C75_sizes_exact : forall S junk m qs, (forall q, In q qs -> in_range q) ->
  iresizes m isizes_new qs = Ok (sizes_of (fold_left (fun s q => resize junk s (q_n q) (q_m q) (q_b q)) qs (sol_new S))).
Proof.
  intros S junk m qs Hq.
  assert (H : forall s : sol S, Z.of_nat (a_nc (s_A s)) + Z.of_nat (a_nb (s_A s)) <= int_max ->
    iresizes m (sizes_of s) qs = Ok (sizes_of (fold_left (fun s q => resize junk s (q_n q) (q_m q) (q_b q)) qs s))).
  { induction qs as [|q qs IH]; intros s HA; [reflexivity|]. cbn [iresizes fold_left]. pose proof (Hq q (or_introl eq_refl)) as Hr.
    rewrite (resize_exact m junk s q HA Hr). cbn [bind]. apply IH; [intros; apply Hq; right; auto|].
    destruct (resize_A junk s (q_n q) (q_m q) (q_b q)) as [-> ->]. destruct Hr as [_ Hr]. change (2 ^ 31) with (int_max + 1) in Hr.
    destruct (q_b q); lia. }
  apply (H (sol_new S)). cbn. unfold int_max. lia.
Qed.
(** One request on any object whose constraints were counted in range *)
Theorem C75_one_request : forall S junk m (s : sol S) q, Z.of_nat (a_nc (s_A s)) + Z.of_nat (a_nb (s_A s)) < 2 ^ 31 -> in_range q ->
  iresize m (sizes_of s) (Z.of_nat (q_n q)) (Z.of_nat (q_m q)) (q_b q) = Ok (sizes_of (resize junk s (q_n q) (q_m q) (q_b q))).
Proof. intros S junk m s q H. apply resize_exact. change (2 ^ 31) with (int_max + 1) in H. lia. Qed.
(** The assertions of the matrix views are computed exactly too. *)
Theorem C75_views_exact : forall S m (w : work S) r c ld, Z.of_nat ld * Z.of_nat c < 2 ^ 31 ->
  iw_view m (Z.of_nat (w_size w)) (Z.of_nat r) (Z.of_nat c) (Z.of_nat ld) = Ok (mat_fits w r c ld).
Proof.
  intros S m w r c ld H. change (2 ^ 31) with (int_max + 1) in H. unfold iw_view, imul. rewrite int_in by nia. cbn [bind]. f_equal. unfold mat_fits.
  rewrite <- Nat2Z.inj_mul. f_equal.
  - destruct (Nat.leb_spec (ld * c) (w_size w)), (Z.leb_spec (Z.of_nat (ld * c)) (Z.of_nat (w_size w))); auto; lia.
  - destruct (Nat.leb_spec r ld), (Z.leb_spec (Z.of_nat r) (Z.of_nat ld)); auto; lia.
Qed.

(** Exactly when a request overflows: the limit for the number of variables is 46340. *)
Theorem C75_overflow_iff : forall s n k (b : bool), 0 <= n -> 0 <= k -> 0 <= i_nc s -> 0 <= i_nb s ->
  (iresize strict s n k b = UB <->
   (n <> i_n s /\ 46341 <= n) \/ 2 ^ 31 <= k + (if b then n else 0) \/ 2 ^ 31 <= i_nc s + i_nb s).
Proof.
  intros s n k b Hn Hk Hc Hb. change (2 ^ 31) with (int_max + 1).
  assert (F : forall z, 0 <= z -> fits_int z = (z <=? int_max)).
  { intros z Hz. unfold fits_int. rewrite (proj2 (Z.leb_le int_min z)) by (unfold int_min; lia). reflexivity. }
  assert (SQ : n * n <= int_max <-> n <= 46340) by (unfold int_max; nia).
  assert (P : forall t, i_nc t = i_nc s -> i_nb t = i_nb s ->
     (iresize_p strict t n k b = UB <-> int_max + 1 <= k + (if b then n else 0) \/ int_max + 1 <= i_nc s + i_nb s)).
  { intros t T1 T2. unfold iresize_p. cbn zeta.
    set (t1 := if n =? i_n t then t else _). assert (T3 : i_nc t1 = i_nc s /\ i_nb t1 = i_nb s) by (unfold t1; destruct (n =? i_n t); auto).
    destruct T3 as [-> ->]. unfold iadd. cbn [int_result].
    assert (0 <= (if b then n else 0)) by (destruct b; lia).
    rewrite !F by lia. destruct (Z.leb_spec (k + (if b then n else 0)) int_max); cbn [guard bind]; [|split; [left; lia|reflexivity]].
    destruct (Z.leb_spec (i_nc s + i_nb s) int_max); cbn [guard bind]; [|split; [right; lia|reflexivity]].
    split; [discriminate|lia]. }
  unfold iresize, iresize_d. destruct (Z.eqb_spec n (i_n s)).
  - cbn [bind]. rewrite P by reflexivity. intuition lia.
  - unfold iw_resize2, imul. cbn [int_result]. rewrite F by nia. destruct (Z.leb_spec (n * n) int_max) as [L|L]; cbn [guard bind].
    + rewrite P by reflexivity. assert (n <= 46340) by (apply SQ; auto). intuition lia.
    + split; [|reflexivity]. intros _. left. split; auto. assert (~ n <= 46340) by (rewrite <- SQ; lia). lia.
Qed.

(** What a build that wraps around does then: the factor J is not given its memory, and the assertion that guards
    its n x n view, which overflows in the same way, lets it through. *)
Lemma wrap_lt z : int_max < z -> wrap z < z.
Proof. unfold wrap, int_max. intros. pose proof (Z.mod_pos_bound (z + 2147483648) 4294967296). lia. Qed.
Theorem C75_wraps_out_of_bounds : forall s n k b, n <> i_n s -> 46341 <= n -> 0 <= i_J s < n * n ->
  exists s', iresize wrapping s n k b = Ok s' /\ iw_view wrapping (i_J s') n n n = Ok true /\
    exists i j, 0 <= i < n /\ 0 <= j < n /\ i_J s' <= i + n * j.
Proof.
  intros s n k b Hn Hb HJ. assert (NN : int_max < n * n) by (unfold int_max; nia). pose proof (wrap_lt _ NN) as HW.
  unfold iresize, iresize_d. rewrite (proj2 (Z.eqb_neq _ _)) by auto. unfold iw_resize2, imul. cbn [int_result bind].
  set (J := iw_resize (i_J s) (wrap (n * n))).
  assert (EJ : wrap (n * n) <= J < n * n) by (unfold J, iw_resize; destruct (Z.ltb_spec (i_J s) (wrap (n * n))); lia).
  unfold iresize_p, iadd. cbn [int_result bind]. eexists. split; [reflexivity|].
  match goal with |- iw_view wrapping (i_J ?t) n n n = _ /\ _ => assert (E : i_J t = J) end.
  { repeat match goal with |- context [if ?c then _ else _] => destruct c end; reflexivity. }
  rewrite E. split.
  - unfold iw_view, imul. cbn [int_result bind]. rewrite (proj2 (Z.leb_le _ _)) by lia. rewrite Z.leb_refl. reflexivity.
  - exists (n - 1), (n - 1). nia.
Qed.
(** For a fresh object and 46341 to 65536 variables nothing at all is allocated. *)
Theorem C75_nothing_allocated : forall n k b, 46341 <= n <= 65536 ->
  exists s', iresize wrapping isizes_new n k b = Ok s' /\ i_J s' = 0 /\ i_R s' = 0 /\ iw_view wrapping (i_J s') n n n = Ok true.
Proof.
  intros n k b Hn.
  assert (EW : wrap (n * n) <= 0).
  { unfold wrap. destruct (Z.eq_dec n 65536) as [->|]; [vm_compute; discriminate|].
    replace (n * n + 2147483648) with (n * n - 2147483648 + 1 * 4294967296) by lia. rewrite Z.mod_add by lia. rewrite Z.mod_small by nia. nia. }
  unfold iresize, iresize_d. cbn [isizes_new i_n]. rewrite (proj2 (Z.eqb_neq _ _)) by lia. unfold iw_resize2, imul. cbn [int_result bind i_J i_R isizes_new].
  assert (E0 : iw_resize 0 (wrap (n * n)) = 0) by (unfold iw_resize; destruct (Z.ltb_spec 0 (wrap (n * n))); lia). rewrite E0.
  unfold iresize_p, iadd. cbn [int_result bind]. eexists. split; [reflexivity|].
  match goal with |- i_J ?t = _ /\ _ => assert (E : i_J t = 0 /\ i_R t = 0) end.
  { repeat match goal with |- context [if ?c then _ else _] => destruct c end; split; reflexivity. }
  destruct E as [-> ->]. split; auto. split; auto. unfold iw_view, imul. cbn [int_result bind]. rewrite (proj2 (Z.leb_le _ _)) by lia. rewrite Z.leb_refl. reflexivity.
Qed.

(** Cases: sizes in range; a request on a used object; an overflowing one *)
Example C75_nonvacuous : in_range (Req (Z.to_nat 46340) 8 true) /\ in_range (Req 5 8 true) /\
  iresizes strict isizes_new [Req 50 8 true; Req 5 8 true; Req 7 0 false] = Ok (IS 7 50 50 58 58 50 2500 2500 0 0) /\
  iresize strict isizes_new 46341 10 false = UB /\ 46341 <> i_n isizes_new /\ 0 <= i_J isizes_new < 46341 * 46341.
Proof.
  split; [unfold in_range; cbn [q_n q_m q_b]; rewrite Z2Nat.id by lia; lia|].
  split; [unfold in_range; cbn [q_n q_m q_b]; lia|].
  split; [reflexivity|]. split; [reflexivity|]. cbn; lia.
Qed.

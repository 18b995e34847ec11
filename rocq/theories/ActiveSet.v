(** Model of jrl::qp::internal::ActiveSet
    (include/jrl-qp/internal/ActiveSet.h, src/internal/ActiveSet.cpp).
    [int] indices are [nat] (negative arguments are out of the model's domain);
    counters are [Z] as in the code ([int], overflow not modelled). *)
From Coq Require Import List Arith ZArith Lia Bool.
From Verif Require Import Base.
Import ListNotations.

(** ActiveSet.h:147-166, the data members *)
Record aset := mkA {
  a_status : list status;      (* status_ *)
  a_active : list nat;         (* activeSet_ *)
  a_nc : nat; a_nb : nat;      (* nbCstr_, nbBnd_ *)
  a_me : Z; a_mi : Z; a_ml : Z; a_mu : Z;
  a_mb : Z; a_mbl : Z; a_mbu : Z; a_mbe : Z
}.

(** ActiveSet.h:95-142, observers *)
Definition nbAll (A : aset) : nat := a_nc A + a_nb A.
Definition nbActiveCstr (A : aset) : Z := (a_me A + a_mi A + a_mb A)%Z.
(** The number of active constraints used as a size by the solvers (an [int]
    that is then used as an Eigen size). *)
Definition nact (A : aset) : nat := Z.to_nat (nbActiveCstr A).

(** ActiveSet.cpp:45-59 *)
Definition as_reset (A : aset) : aset :=
  mkA (map (fun _ => INACTIVE) (a_status A)) [] (a_nc A) (a_nb A)
      0 0 0 0 0 0 0 0.

(** std::vector::resize: keep the prefix, value-initialise the rest
    (INACTIVE is 0). *)
Definition vec_resize (l : list status) (n : nat) : list status :=
  firstn n l ++ repeat INACTIVE (n - length l).

(** ActiveSet.cpp:30-43 *)
Definition as_resize (A : aset) (nc nb : nat) : aset :=
  as_reset (mkA (vec_resize (a_status A) (nc + nb)) (a_active A) nc nb
                (a_me A) (a_mi A) (a_ml A) (a_mu A) (a_mb A) (a_mbl A) (a_mbu A) (a_mbe A)).

(** ActiveSet.cpp:12-15; members are indeterminate before [resize], which sets
    all of them, so any start value will do. *)
Definition as_new (nc nb : nat) : aset :=
  as_resize (mkA [] [] 0 0 0 0 0 0 0 0 0 0) nc nb.

(** ActiveSet.cpp:72-76 and 61-65 *)
Definition as_stat (A : aset) (i : nat) : res status :=
  guard (i <? nbAll A) (match nth_error (a_status A) i with Some s => Ok s | None => UB end).
Definition isActive (A : aset) (i : nat) : res bool :=
  do s <- as_stat A i; Ok (negb (status_eqb s INACTIVE)).
(** ActiveSet.cpp:66-71 and 77-81 *)
Definition as_statBnd (A : aset) (i : nat) : res status :=
  guard (i <? a_nb A) (match nth_error (a_status A) (a_nc A + i) with Some s => Ok s | None => UB end).
Definition isActiveBnd (A : aset) (i : nat) : res bool :=
  do s <- as_statBnd A i; Ok (negb (status_eqb s INACTIVE)).
(** ActiveSet.h:75-78 (operator[]; out of range is UB) *)
Definition as_get (A : aset) (k : nat) : res nat :=
  match nth_error (a_active A) k with Some i => Ok i | None => UB end.

Fixpoint set_nth {X} (l : list X) (i : nat) (x : X) : list X :=
  match l, i with
  | [], _ => []
  | _ :: t, 0 => x :: t
  | h :: t, S i => h :: set_nth t i x
  end.

Fixpoint remove_nth {X} (l : list X) (k : nat) : list X :=
  match l, k with
  | [], _ => []
  | _ :: t, 0 => t
  | h :: t, S k => h :: remove_nth t k
  end.

(** The [switch] on the status of ActiveSet.cpp:105-135 ([d = 1]) and
    ActiveSet.cpp:146-176 ([d = -1]). *)
Definition count_update (A : aset) (st : list status) (ac : list nat) (s : status) (d : Z) : res aset :=
  let '(mkA _ _ nc nb me mi ml mu mb mbl mbu mbe) := A in
  match s with
  | LOWER => Ok (mkA st ac nc nb me (mi + d) (ml + d) mu mb mbl mbu mbe)
  | UPPER => Ok (mkA st ac nc nb me (mi + d) ml (mu + d) mb mbl mbu mbe)
  | EQUALITY => Ok (mkA st ac nc nb (me + d) mi ml mu mb mbl mbu mbe)
  | LOWER_BOUND => Ok (mkA st ac nc nb me mi ml mu (mb + d) (mbl + d) mbu mbe)
  | UPPER_BOUND => Ok (mkA st ac nc nb me mi ml mu (mb + d) mbl (mbu + d) mbe)
  | FIXED => Ok (mkA st ac nc nb me mi ml mu (mb + d) mbl mbu (mbe + d))
  | INACTIVE => UB
  end%Z.

(** The kind test of the assert at ActiveSet.cpp:95-100 *)
Definition kind_ok (nc i : nat) (s : status) : bool :=
  match s with
  | EQUALITY | LOWER | UPPER => i <? nc
  | LOWER_BOUND | UPPER_BOUND | FIXED => negb (i <? nc)
  | INACTIVE => false
  end.

(** ActiveSet.cpp:90-136 *)
Definition as_activate (A : aset) (i : nat) (s : status) : res aset :=
  guard (i <? nbAll A)
  (match nth_error (a_status A) i with
   | Some INACTIVE =>
       guard (kind_ok (a_nc A) i s)
         (count_update A (set_nth (a_status A) i s) (a_active A ++ [i]) s 1)
   | _ => UB
   end).

(** ActiveSet.cpp:137-177 *)
Definition as_deactivate (A : aset) (k : nat) : res aset :=
  match nth_error (a_active A) k with
  | None => UB
  | Some i =>
      match nth_error (a_status A) i with
      | None => UB
      | Some s =>
          count_update A (set_nth (a_status A) i INACTIVE) (remove_nth (a_active A) k) s (-1)
      end
  end.

(** ActiveSet.cpp:17-29: [resize(n - nBnd, nBnd)] (assert: [n - nBnd >= 0]),
    then activate in order. *)
Fixpoint activate_from (A : aset) (i : nat) (l : list status) : res aset :=
  match l with
  | [] => Ok A
  | s :: l' =>
      do A' <- (if status_eqb s INACTIVE then Ok A else as_activate A i s);
      activate_from A' (S i) l'
  end.
Definition as_of_vec (v : list status) (nb : nat) : res aset :=
  guard (nb <=? length v) (activate_from (as_new (length v - nb) nb) 0 v).

(** ** Histories of public operations *)
Inductive as_op :=
| OpResize (nc nb : nat) | OpReset | OpActivate (i : nat) (s : status) | OpDeactivate (k : nat).

Definition as_step (A : aset) (o : as_op) : res aset :=
  match o with
  | OpResize nc nb => Ok (as_resize A nc nb)
  | OpReset => Ok (as_reset A)
  | OpActivate i s => as_activate A i s
  | OpDeactivate k => as_deactivate A k
  end.

Fixpoint as_run (A : aset) (ops : list as_op) : res aset :=
  match ops with
  | [] => Ok A
  | o :: t => do A' <- as_step A o; as_run A' t
  end.

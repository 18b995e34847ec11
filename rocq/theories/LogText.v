(** The text written by the Matlab writer and the logger (include/jrl-qp/utils/toMatlab.h, Logger.h, src/utils/Logger.cpp,
    the stream operators of ActiveSet, SelectedConstraint and ConstraintNormal).
    The filter of the logger is the one of Util.v.  [show] is what the stream prints for a number (its precision is the one
    of the stream: Eigen::StreamPrecision); streams have width 0 when a matrix is printed. *)
From Coq Require Import List Arith ZArith NArith Lia Bool Ascii String DecimalString.
From Verif Require Import Base ActiveSet Util.
Import ListNotations.
Local Open Scope string_scope.

Definition nl : string := String (ascii_of_nat 10) EmptyString.
(** os << int *)
Definition show_int (z : Z) : string := NilZero.string_of_int (Z.to_int z).
Fixpoint spaces (k : nat) : string := match k with O => EmptyString | S k => String " " (spaces k) end.
Fixpoint concat_map {A} (f : A -> string) (l : list A) : string := match l with [] => EmptyString | a :: l => f a ++ concat_map f l end.

Section Text.
Context {V : Type} (show : V -> string).

(** ** Eigen's IO.h: IOFormat (the fields used here) and print_matrix *)
Record iofmt := Fmt { coeffSep : string; rowSep : string; rowPrefix : string; rowSuffix : string; matPrefix : string; matSuffix : string }.
(** IOFormat's constructor: one blank per character of matPrefix after its last newline (none here) *)
Definition rowSpacer (f : iofmt) : string := spaces (String.length (matPrefix f)).
(** a value printed with s.width(width) and the fill character ' ' (right aligned) *)
Definition padded (w : nat) (s : string) : string := spaces (w - String.length s) ++ s.
Fixpoint upto (k : nat) : list nat := match k with O => [] | S k => upto k ++ [k] end.
(** print_matrix, first loop: the largest width *)
Definition width (r c : nat) (m : nat -> nat -> V) : nat :=
  fold_left (fun w j => fold_left (fun w i => Nat.max w (String.length (show (m i j)))) (upto r) w) (upto c) 0.
(** print_matrix, second loop *)
Definition print_row (f : iofmt) (w c : nat) (m : nat -> nat -> V) (i : nat) : string :=
  padded w (show (m i 0)) ++ concat_map (fun j => coeffSep f ++ padded w (show (m i (S j)))) (upto (c - 1)).
Definition print_matrix (f : iofmt) (r c : nat) (m : nat -> nat -> V) : string :=
  if (r * c =? 0)%nat then matPrefix f ++ matSuffix f
  else let w := width r c m in
    matPrefix f ++ concat_map (fun i => (if (i =? 0)%nat then "" else rowSpacer f) ++ rowPrefix f ++ print_row f w c m i ++ rowSuffix f ++ (if (i <? r - 1)%nat then rowSep f else "")) (upto r) ++ matSuffix f.

(** ** toMatlab.h:40-53 *)
Definition toMatlab (r c : nat) (m : nat -> nat -> V) : string :=
  if (c =? 1)%nat then print_matrix (Fmt "; " ";" "" "" "[" "]") c r (fun i j => m j i)
  else print_matrix (Fmt ", " (";" ++ nl) "" "" "[" "]") r c m.

(** ** The values that can be logged: Eigen matrices, std::vector (the elements are numbers, or enumerators printed as
    their underlying value), anything else with an operator<< *)
Inductive value := VMat (r c : nat) (m : nat -> nat -> V) | VList (l : list V) | VOther (t : string).

(** Logger.h:94-106: logIter<true> and logIter<false> (as a text); [b] is true for iteration data *)
Definition logIter (l : logger) (b : bool) : string :=
  if b then lg_name l ++ "(" ++ show_int (lg_iter l + 1) ++ ")" else lg_name l ++ "Data".
(** the loop of Logger.h:149-153 *)
Fixpoint list_text (l : list V) : string :=
  match l with
  | [] => EmptyString
  | [v] => show v ++ "];" ++ nl
  | v :: l' => show v ++ ", " ++ list_text l'
  end.
(** Logger.h:143-162: the three logVal_ *)
Definition logVal (l : logger) (b : bool) (name : string) (v : value) : string :=
  match v with
  | VMat r c m => logIter l b ++ "." ++ name ++ " = " ++ toMatlab r c m ++ ";" ++ nl
  | VList [] => EmptyString
  | VList (x :: l') => logIter l b ++ "." ++ name ++ " = [" ++ list_text (x :: l')
  | VOther t => logIter l b ++ "." ++ name ++ " = " ++ t ++ ";" ++ nl
  end.
(** Logger.h:130-135 *)
Definition log_args (l : logger) (b : bool) (args : list (string * value)) : string := concat_map (fun a => logVal l b (fst a) (snd a)) args.

(** ** Loggers at work.  Streams are numbers (Util.v); [streams os] is what has been written so far. *)
Record lworld := LW { loggers : list logger; streams : nat -> string }.
Definition write (w : lworld) (os : nat) (t : string) : lworld :=
  LW (loggers w) (fun i => if (i =? os)%nat then streams w i ++ t else streams w i).
Definition set_logger (w : lworld) (k : nat) (l : logger) : lworld := LW (firstn k (loggers w) ++ l :: skipn (S k) (loggers w)) (streams w).
(** Logger.h:117-128 *)
Definition do_log (w : lworld) (l : logger) (flag : N) (args : list (string * value)) : lworld :=
  match log l flag with
  | None => w
  | Some (os, General _) => write w os (log_args l false args)
  | Some (os, _) => write w os (log_args l true args)
  end.
(** Logger.h:111-115 *)
Definition do_comment (w : lworld) (l : logger) (flag : N) (texts : list string) : lworld :=
  match comment l flag with None => w | Some (os, _) => write w os ("% " ++ concat_map (fun t => t) texts ++ nl) end.
(** the calls of the API on the k-th logger *)
Inductive lop :=
| OSetFlag (k : nat) (flag : N) (add : bool)
| OStream (k os : nat)
| OStart (k : nat) (i : Z)
| OLog (k : nat) (flag : N) (args : list (string * value))
| OComment (k : nat) (flag : N) (texts : list string)
| OSub (k : nat) (name : string).
Definition lexec (w : lworld) (o : lop) : lworld :=
  match o with
  | OSetFlag k flag add => match nth_error (loggers w) k with Some l => set_logger w k (setFlag l flag add) | None => w end
  | OStream k os => match nth_error (loggers w) k with Some l => set_logger w k (setOutputStream l os) | None => w end
  | OStart k i =>   (* Logger.cpp:22-26 *)
      match nth_error (loggers w) k with
      | Some l => let l' := fst (startIter l i) in do_log (set_logger w k l') l' all32 [("it", VOther (show_int i))]
      | None => w
      end
  | OLog k flag args => match nth_error (loggers w) k with Some l => do_log w l flag args | None => w end
  | OComment k flag texts => match nth_error (loggers w) k with Some l => do_comment w l flag texts | None => w end
  | OSub k name =>   (* Logger.cpp:28-31 *)
      match nth_error (loggers w) k with
      | Some l => LW (loggers w ++ [Lg (lg_flags l) (-1) (lg_name l ++ "(" ++ show_int (lg_iter l + 1) ++ ")." ++ name) (lg_os l)]) (streams w)
      | None => w
      end
  end.
(** Logger.h:24-27: a new logger *)
Definition logger_new (os : nat) (name : string) (flags : N) : logger := Lg flags (-1) name os.
End Text.

(** ** The other stream operators *)
(** src/internal/ActiveSet.cpp:170-178, with its loop *)
Fixpoint show_active_loop (A : aset) (i k : nat) : res string :=   (* k more turns, from index i *)
  match k with
  | O => Ok EmptyString
  | S k => do a <- as_get A i; do t <- show_active_loop A (S i) k; Ok (show_int (Z.of_nat a) ++ ", " ++ t)
  end.
Definition show_activeset (A : aset) : res string :=
  let n := nbActiveCstr A in
  do t <- show_active_loop A 0 (Z.to_nat (n - 1));
  do e <- (if (0 <? n)%Z then do a <- as_get A (Z.to_nat (n - 1)); Ok (show_int (Z.of_nat a)) else Ok EmptyString);
  Ok ("[" ++ t ++ e ++ "]").
(** enums.h:14-23: the value of an enumerator *)
Definition status_value (s : status) : Z :=
  match s with INACTIVE => 0 | LOWER => 1 | UPPER => 2 | EQUALITY => 3 | LOWER_BOUND => 4 | UPPER_BOUND => 5 | FIXED => 6 end.
(** include/jrl-qp/internal/SelectedConstraint.h:36-40 *)
Definition show_selected (p : Z) (s : status) : string := "{" ++ show_int p ++ ", " ++ show_int (status_value s) ++ "}".
(** include/jrl-qp/structured/StructuredC.h:39-43, StructuredG.h:62-66: nothing is printed *)
Definition show_structured : string := EmptyString.

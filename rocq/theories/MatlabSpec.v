(** How Matlab reads a script made of assignments, comments and matrix literals; independent of the program. *)
From Coq Require Import List Arith ZArith Lia Bool Ascii String DecimalString.
Import ListNotations.
Local Open Scope string_scope.

Definition newline : ascii := ascii_of_nat 10.
Definition is (c d : ascii) : bool := Ascii.eqb c d.
Fixpoint has (p : ascii -> bool) (s : string) : bool := match s with EmptyString => false | String c s' => p c || has p s' end.

(** ** Pieces of a text between separators, empty pieces left out *)
Definition keep (w : string) (l : list string) : list string := match w with EmptyString => l | _ => w :: l end.
Fixpoint pieces_ (p : ascii -> bool) (s : string) : string * list string :=
  match s with
  | EmptyString => (EmptyString, [])
  | String c s' => let '(w, l) := pieces_ p s' in if p c then (EmptyString, keep w l) else (String c w, l)
  end.
Definition pieces (p : ascii -> bool) (s : string) : list string := let '(w, l) := pieces_ p s in keep w l.

(** ** A matrix literal: rows separated by ; or newlines, elements by commas or blanks *)
Definition row_sep (c : ascii) : bool := is c ";" || is c newline.
Definition elem_sep (c : ascii) : bool := is c "," || is c " ".
Definition bracket (c : ascii) : bool := is c "[" || is c "]" || is c "{" || is c "}".
Definition rows_of (body : string) : list (list string) :=
  filter (fun r => match r with [] => false | _ => true end) (map (pieces elem_sep) (pieces row_sep body)).
Definition literal (s : string) (rows : list (list string)) : Prop :=
  exists body, s = "[" ++ body ++ "]" /\ has bracket body = false /\ rows_of body = rows.

(** ** The statements of a script: they end at a ; or at a newline out of any bracket; a % starts a comment *)
Inductive mode := Code (depth : nat) | Comm (depth : nat).
Definition opens (c : ascii) : bool := is c "[" || is c "{".
Definition closes (c : ascii) : bool := is c "]" || is c "}".
Fixpoint scan (m : mode) (s : string) : string * list string :=
  match s with
  | EmptyString => (EmptyString, [])
  | String c s' =>
      match m with
      | Comm d =>
          if is c newline then match d with
            | O => let '(w, l) := scan (Code O) s' in (EmptyString, keep w l)
            | _ => let '(w, l) := scan (Code d) s' in (String c w, l)
            end
          else scan (Comm d) s'
      | Code d =>
          if is c "%" then scan (Comm d) s'
          else if row_sep c && (d =? 0)%nat then let '(w, l) := scan (Code O) s' in (EmptyString, keep w l)
          else let '(w, l) := scan (Code (if opens c then Datatypes.S d else if closes c then Nat.pred d else d)) s' in (String c w, l)
      end
  end.
Definition statements (s : string) : list string := let '(w, l) := scan (Code 0) s in keep w l.

(** ** An assignment, cut at its first = ; blanks around the two sides do not count *)
Fixpoint without_blanks (s : string) : string :=
  match s with EmptyString => EmptyString | String c s' => if is c " " then without_blanks s' else String c (without_blanks s') end.
Fixpoint left_trim (s : string) : string := match s with String c s' => if is c " " then left_trim s' else s | EmptyString => s end.
Fixpoint cut (s : string) : string * option string :=
  match s with
  | EmptyString => (EmptyString, None)
  | String c s' => if is c "=" then (EmptyString, Some s') else let '(a, b) := cut s' in (String c a, b)
  end.
Definition assignment (st : string) : string * option string :=
  let '(a, b) := cut st in (without_blanks a, option_map left_trim b).
(** what a script does: the sequence of its assignments (left-hand side, expression); [None]: not an assignment *)
Definition run (s : string) : list (string * option string) := map assignment (statements s).
(** the expression last assigned to a left-hand side *)
Fixpoint last_value (lhs : string) (l : list (string * option string)) : option string :=
  match l with
  | [] => None
  | (a, b) :: l' => match last_value lhs l' with Some v => Some v | None => if String.eqb a lhs then b else None end
  end.

(** ** Names of struct elements: name(i).field (Matlab counts from 1) and name.field *)
Definition decimal (z : Z) : string := NilZero.string_of_int (Z.to_int z).
Definition element (name : string) (i : Z) (field : string) : string := name ++ "(" ++ decimal i ++ ")." ++ field.
Definition member (name : string) (field : string) : string := name ++ "." ++ field.

(** ** Texts without character that has a meaning for the reader *)
Definition special (c : ascii) : bool :=
  is c ";" || is c newline || is c "," || is c " " || is c "[" || is c "]" || is c "{" || is c "}" || is c "%" || is c "=".
Definition word (s : string) : Prop := s <> EmptyString /\ has special s = false.
(** the texts of the elements of an r x c matrix, row by row (Matlab reads any matrix without element as []) *)
Definition table {V} (show : V -> string) (r c : nat) (m : nat -> nat -> V) : list (list string) :=
  map (fun i => map (fun j => show (m i j)) (seq 0 c)) (seq 0 r).
(** a text that the reader takes as one expression when it is followed by a ; *)
Definition expression (t : string) : Prop :=
  t <> EmptyString /\ (forall t', t <> String " " t') /\ forall s, scan (Code 0) (t ++ ";" ++ s) = (t, statements s).

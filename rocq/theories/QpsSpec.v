(** What a QPS file is and which problem it describes, independently of the reader (only the enumerations of sections,
    row and bound types are shared with Qps.v).
    Reference: http://lpsolve.sourceforge.net/5.5/mps-format.htm with a QUADOBJ section. *)
From Coq Require Import List Arith ZArith Lia Bool Ascii String Reals.
From Verif Require Import Base Num LinAlg TestPb Qps.
Import ListNotations.
Local Open Scope R_scope.

(** ** The words of a line *)
Definition blank (c : ascii) : bool := existsb (Ascii.eqb c) (" " :: map ascii_of_nat [9; 10; 11; 12; 13]%nat)%char.
(** small letters *)
Definition small (c : ascii) : ascii := let n := nat_of_ascii c in if ((65 <=? n) && (n <=? 90))%nat then ascii_of_nat (n + 32) else c.
Fixpoint in_small (s : string) : string := match s with EmptyString => EmptyString | String c s' => String (small c) (in_small s') end.
Definition cons_word (w : string) (l : list string) : list string := match w with EmptyString => l | _ => w :: l end.
Fixpoint split (s : string) : string * list string :=
  match s with
  | EmptyString => (EmptyString, [])
  | String c s' => let '(w, l) := split s' in if blank c then (EmptyString, cons_word w l) else (String c w, l)
  end.
Definition tokens (s : string) : list string := let '(w, l) := split s in cons_word w l.
Fixpoint has_char (c : ascii) (s : string) : bool := match s with EmptyString => false | String d s' => Ascii.eqb d c || has_char c s' end.
Fixpoint unlines (ls : list string) : string :=
  match ls with [] => EmptyString | l :: ls' => append l (String newline (unlines ls')) end.

(** ** The contents of a file *)
Inductive item :=
| IRow (t : rowt) (r : string)              (* a row *)
| ICol (c r : string) (v : R)               (* column, row, coefficient *)
| IRhs (set r : string) (v : R)
| IRng (set r : string) (v : R)
| IBnd (t : bndt) (c : string) (v : R)
| IQuad (c r : string) (v : R).

(** the letter of a row type (in any case) and the name of a bound type *)
Definition row_letter (t : rowt) (c : ascii) : Prop :=
  match t with RN => c = "N" \/ c = "n" | RE => c = "E" \/ c = "e" | RL => c = "L" \/ c = "l" | RG => c = "G" \/ c = "g" end%char.
Definition bound_name (t : bndt) : string :=
  match t with BLO => "LO" | BUP => "UP" | BFX => "FX" | BFR => "FR" | BMI => "MI" | BPL => "PL" end%string.

Section Text.
Variable num : string -> option R.          (* the numbers *)
(** the lines of data of each section *)
Inductive data_line : lt -> string -> list item -> Prop :=
| dl_row l c t r : tokens l = [String c EmptyString; r] -> row_letter t c -> data_line LROWS l [IRow t r]
| dl_col1 l c r n v : tokens l = [c; r; n] -> num n = Some v -> data_line LCOLUMNS l [ICol c r v]
| dl_col2 l c r n v r' n' v' : tokens l = [c; r; n; r'; n'] -> num n = Some v -> num n' = Some v' -> data_line LCOLUMNS l [ICol c r v; ICol c r' v']
| dl_rhs1 l c r n v : tokens l = [c; r; n] -> num n = Some v -> data_line LRHS l [IRhs c r v]
| dl_rhs2 l c r n v r' n' v' : tokens l = [c; r; n; r'; n'] -> num n = Some v -> num n' = Some v' -> data_line LRHS l [IRhs c r v; IRhs c r' v']
| dl_rng1 l c r n v : tokens l = [c; r; n] -> num n = Some v -> data_line LRANGES l [IRng c r v]
| dl_rng2 l c r n v r' n' v' : tokens l = [c; r; n; r'; n'] -> num n = Some v -> num n' = Some v' -> data_line LRANGES l [IRng c r v; IRng c r' v']
| dl_bnd l t set c n v : tokens l = [bound_name t; set; c; n] -> t <> BFR -> num n = Some v -> data_line LBOUNDS l [IBnd t c v]
| dl_fr l set c : tokens l = [bound_name BFR; set; c] -> data_line LBOUNDS l [IBnd BFR c 0]
| dl_quad1 l c r n v : tokens l = [c; r; n] -> num n = Some v -> data_line LQUADOBJ l [IQuad c r v]
| dl_quad2 l c r n v r' n' v' : tokens l = [c; r; n; r'; n'] -> num n = Some v -> num n' = Some v' -> data_line LQUADOBJ l [IQuad c r v; IQuad c r' v'].
Definition keyword (t : lt) : option string :=
  match t with
  | LNAME => Some "name" | LROWS => Some "rows" | LCOLUMNS => Some "columns" | LRHS => Some "rhs" | LRANGES => Some "ranges"
  | LBOUNDS => Some "bounds" | LQUADOBJ => Some "quadobj" | LENDATA => Some "endata" | _ => None
  end%string.
Definition starts_with (c : ascii) (l : string) : Prop := exists l', l = String c l'.
(** a file, line by line, starting in a given section and ending in another: comments and empty lines, headers in any
    case (with a name after NAME), lines of data, which start with a blank *)
Inductive renders : lt -> list string -> list item -> lt -> Prop :=
| rn_end s : renders s [] [] s
| rn_skip s l ls its e : l = EmptyString \/ starts_with "*" l -> renders s ls its e -> renders s (l :: ls) its e
| rn_head s l t w ws ls its e : ~ starts_with " " l -> tokens l = w :: ws -> keyword t = Some (in_small w) -> (t = LNAME -> ws <> []) ->
    renders t ls its e -> renders s (l :: ls) its e
| rn_data s l i1 ls i2 e : starts_with " " l -> data_line s l i1 -> renders s ls i2 e -> renders s (l :: ls) (i1 ++ i2) e.
End Text.

(** ** The problem described *)
Definition rows_of (its : list item) : list (rowt * string) := flat_map (fun i => match i with IRow t r => [(t, r)] | _ => [] end) its.
(** the constraints, in order *)
Definition not_N (t : rowt) : bool := match t with RN => false | _ => true end.
Definition cstrs (its : list item) : list (rowt * string) := filter (fun p => not_N (fst p)) (rows_of its).
(** the variables, in order of first appearance *)
Fixpoint uniq (seen : list string) (l : list string) : list string :=
  match l with [] => [] | x :: l' => if in_dec string_dec x seen then uniq seen l' else x :: uniq (x :: seen) l' end.
Definition cols_of (its : list item) : list string := flat_map (fun i => match i with ICol c _ _ => [c] | _ => [] end) its.
Definition vars (its : list item) : list string := uniq [] (cols_of its).
(** right-hand side of a row, 0 if none is given *)
Definition rhs_is (its : list item) (r : string) (b : R) : Prop :=
  (exists s, In (IRhs s r b) its) \/ (b = 0 /\ forall s v, ~ In (IRhs s r v) its).
Definition no_range (its : list item) (r : string) : Prop := forall s v, ~ In (IRng s r v) its.
(** the interval of a row, without and with a range: [lower, upper] *)
Definition interval (t : rowt) (b : R) : option R * option R :=
  match t with RE => (Some b, Some b) | RL => (None, Some b) | RG => (Some b, None) | RN => (None, None) end.
Definition ranged (t : rowt) (b v : R) : option R * option R :=
  match t with
  | RE => if Rleb 0 v then (Some b, Some (b + Rabs v)) else (Some (b - Rabs v), Some b)
  | RL => (Some (b - Rabs v), Some b)
  | RG => (Some b, Some (b + Rabs v))
  | RN => (None, None)
  end.
(** the bounds of a variable: [0, +inf) changed by the lines of the BOUNDS section, in order *)
Definition one_bound (t : bndt) (v : R) (b : option R * option R) : option R * option R :=
  match t with
  | BLO => (Some v, snd b) | BUP => (fst b, Some v) | BFX => (Some v, Some v)
  | BFR => (None, None) | BMI => (None, snd b) | BPL => (fst b, None)
  end.
Definition bounds_of (its : list item) (c : string) : option R * option R :=
  fold_left (fun b i => match i with IBnd t c' v => if string_dec c' c then one_bound t v b else b | _ => b end) its (Some 0, None).
Definition pos (x : string) (l : list string) (i : nat) : Prop := nth_error l i = Some x.

(** A file the reader is meant for: rows, then columns, then the rest; names declared once; at most one N row; every
    reference declared; one name of right-hand side and of range; at most one value for each coefficient and each
    right-hand side, at most one range per row *)
Record consistent (its : list item) : Prop := CO {
  co_order : exists i1 i2 i3, its = i1 ++ i2 ++ i3 /\ (forall i, In i i1 -> match i with IRow _ _ => True | _ => False end) /\
    (forall i, In i i2 -> match i with ICol _ _ _ => True | _ => False end) /\
    (forall i, In i i3 -> match i with IRow _ _ | ICol _ _ _ => False | _ => True end);
  co_rows : NoDup (map snd (rows_of its));
  co_N : forall r r', In (IRow RN r) its -> In (IRow RN r') its -> r = r';
  co_col : forall c r v, In (ICol c r v) its -> exists t, In (IRow t r) its;
  co_rhs : forall s r v, In (IRhs s r v) its -> exists t, In (IRow t r) its;
  co_rng : forall s r v, In (IRng s r v) its -> exists t, In (IRow t r) its /\ t <> RN;
  co_bnd : forall t c v, In (IBnd t c v) its -> In c (cols_of its);
  co_quad : forall c r v, In (IQuad c r v) its -> In c (cols_of its) /\ In r (cols_of its);
  co_rhsset : forall s s' r r' v v', In (IRhs s r v) its -> In (IRhs s' r' v') its -> s = s';
  co_rngset : forall s s' r r' v v', In (IRng s r v) its -> In (IRng s' r' v') its -> s = s';
  co_colu : forall c r v v', In (ICol c r v) its -> In (ICol c r v') its -> v = v';
  co_rhsu : forall s s' r v v', In (IRhs s r v) its -> In (IRhs s' r v') its -> v = v';
  co_rngu : NoDup (flat_map (fun i => match i with IRng _ r _ => [r] | _ => [] end) its);
  co_quadu : forall c r v v', In (IQuad c r v) its -> In (IQuad c r v') its -> v = v' }.

Record denotes (full : bool) (its : list item) (q : qpproblem fcstr) (p : props) : Prop := DE {
  de_n : mr (qpG q) = List.length (vars its) /\ mc (qpG q) = List.length (vars its) /\ vn (qpa q) = List.length (vars its) /\
         mc (fC (qpF q)) = List.length (vars its) /\ bn (fxl (qpF q)) = List.length (vars its) /\ bn (fxu (qpF q)) = List.length (vars its);
  de_m : mr (fC (qpF q)) = List.length (cstrs its) /\ bn (fl (qpF q)) = List.length (cstrs its) /\ bn (fu (qpF q)) = List.length (cstrs its) /\ ft (qpF q) = false;
  de_C : forall i j t r c, nth_error (cstrs its) i = Some (t, r) -> pos c (vars its) j ->
    (forall v, In (ICol c r v) its -> ma (fC (qpF q)) i j = v) /\ ((forall v, ~ In (ICol c r v) its) -> ma (fC (qpF q)) i j = 0);
  de_a : forall j c, pos c (vars its) j ->
    (forall r v, In (IRow RN r) its -> In (ICol c r v) its -> va (qpa q) j = v) /\
    ((forall r v, In (IRow RN r) its -> ~ In (ICol c r v) its) -> va (qpa q) j = 0);
  de_lu : forall i t r b, nth_error (cstrs its) i = Some (t, r) -> rhs_is its r b ->
    (no_range its r -> (ba (fl (qpF q)) i, ba (fu (qpF q)) i) = interval t b) /\
    (forall s v, In (IRng s r v) its -> (ba (fl (qpF q)) i, ba (fu (qpF q)) i) = ranged t b v);
  de_x : forall j c, pos c (vars its) j -> (ba (fxl (qpF q)) j, ba (fxu (qpF q)) j) = bounds_of its c;
  (* the entries of G are those of the file, except that the upper triangle repeats the lower one when asked for *)
  de_G : forall i j c r, pos c (vars its) j -> pos r (vars its) i ->
    if full && (i <? j)%nat then ma (qpG q) i j = ma (qpG q) j i
    else (forall v, In (IQuad c r v) its -> ma (qpG q) i j = v) /\ ((forall v, ~ In (IQuad c r v) its) -> ma (qpG q) i j = 0);
  de_cst : (forall s r v, In (IRow RN r) its -> In (IRhs s r v) its -> qpcst q = - v) /\
    ((forall s r v, In (IRow RN r) its -> ~ In (IRhs s r v) its) -> qpcst q = 0);
  de_p : pp_nbVar p = List.length (vars its) /\ pp_nbCstr p = List.length (cstrs its) /\
    pp_nbEq p = List.length (filter (fun x => match fst x with RE => true | _ => false end) (rows_of its)) /\
    (pp_useBounds p = true <-> exists c, In c (vars its) /\ bounds_of its c <> (None, None)) /\
    (pp_hasFixed p = true <-> exists c v, In (IBnd BFX c v) its) }.

(** An item that cannot follow [its] *)
Inductive bad (its : list item) : item -> Prop :=
| bd_dup t t' r : In (IRow t' r) its -> bad its (IRow t r)
| bd_N r r' : In (IRow RN r') its -> bad its (IRow RN r)
| bd_col c r v : (forall t, ~ In (IRow t r) its) -> bad its (ICol c r v)
| bd_rhs n r v : (forall t, ~ In (IRow t r) its) -> bad its (IRhs n r v)
| bd_rhsset n r v n' r' v' : In (IRhs n' r' v') its -> n <> n' -> bad its (IRhs n r v)
| bd_rng n r v : (forall t, In (IRow t r) its -> t = RN) -> bad its (IRng n r v)
| bd_rngset n r v n' r' v' : In (IRng n' r' v') its -> n <> n' -> bad its (IRng n r v)
| bd_bnd t c v : ~ In c (cols_of its) -> bad its (IBnd t c v)
| bd_quad c r v : ~ In c (cols_of its) \/ ~ In r (cols_of its) -> bad its (IQuad c r v).

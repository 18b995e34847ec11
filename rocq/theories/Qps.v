(** Model of the reader of QPS files (tests/QPSReader.h, tests/QPSReader.cpp).

    The file is a string; [std::getline] and the extractions of [std::istringstream] are modelled on strings: a
    stream is what remains to be read (once the end is reached every extraction fails, and eof() is true exactly
    when nothing remains after an extraction).  [is >> double] is a parameter [rdnum], applied after the blanks are
    skipped: it returns the value and what remains, or fails.  Values are real numbers, infinite bounds are [None].
    Three outcomes: a value, an exception, undefined behaviour.  The text of the exceptions is left out, except the
    expression that may be undefined (line 159).  The hash maps are association lists; [ord] below is the order in
    which the implementation walks through mapRow. *)
From Coq Require Import List Arith ZArith Lia Bool Ascii String Reals.
From Verif Require Import Base Num LinAlg TestPb.
Import ListNotations.
Local Open Scope R_scope.

Inductive outc (X : Type) := Val (x : X) | Exc | Und.
Arguments Val {X}. Arguments Exc {X}. Arguments Und {X}.
Definition obind {X Y} (a : outc X) (f : X -> outc Y) : outc Y := match a with Val x => f x | Exc => Exc | Und => Und end.
Notation "'try' x <- a ; b" := (obind a (fun x => b)) (at level 200, x pattern, a at level 100, b at level 200, only parsing).
Definition oguard {X} (b : bool) (a : outc X) : outc X := if b then a else Und.

(** ** Characters, streams *)
(** std::isspace *)
Definition is_space (c : ascii) : bool := let n := nat_of_ascii c in ((n =? 32) || ((9 <=? n) && (n <=? 13)))%nat.
(** std::tolower *)
Definition lower_char (c : ascii) : ascii :=
  let n := nat_of_ascii c in if ((65 <=? n) && (n <=? 90))%nat then ascii_of_nat (n + 32) else c.
Fixpoint skip (s : string) : string :=
  match s with EmptyString => EmptyString | String c s' => if is_space c then skip s' else s end.
Fixpoint word (s : string) : string * string :=
  match s with
  | EmptyString => (EmptyString, EmptyString)
  | String c s' => if is_space c then (EmptyString, s) else let '(w, r) := word s' in (String c w, r)
  end.
(** is >> std::string, is >> char *)
Definition get_word (s : string) : option (string * string) :=
  match skip s with EmptyString => None | s' => Some (word s') end.
Definition get_char (s : string) : option (ascii * string) :=
  match skip s with EmptyString => None | String c r => Some (c, r) end.
Fixpoint smap (f : ascii -> ascii) (s : string) : string :=
  match s with EmptyString => EmptyString | String c s' => String (f c) (smap f s') end.
(** QPSReader.cpp:72-75 *)
Definition toLower (s : string) : string := smap lower_char s.
Definition newline : ascii := ascii_of_nat 10.
(** std::getline until it fails *)
Fixpoint getlines (s : string) : list string :=
  match s with
  | EmptyString => []
  | String c s' =>
      if Ascii.eqb c newline then EmptyString :: getlines s'
      else match s' with
           | EmptyString => [String c EmptyString]
           | _ => match getlines s' with
                  | [] => [String c EmptyString]
                  | l :: ls => String c l :: ls
                  end
           end
  end.

(** QPSReader.h:33-46, 48-55, 58-67 *)
Inductive lt := NORMAL | LNAME | LROWS | LCOLUMNS | LRHS | LRANGES | LBOUNDS | LQUADOBJ | LENDATA | LEMPTY | LOTHER.
Inductive rowt := RE | RL | RG | RN.
Inductive bndt := BLO | BUP | BFX | BFR | BMI | BPL.
(** QPSReader.cpp:27-28, entries 1 to 8 *)
Definition section_names : list (string * lt) :=
  [("name", LNAME); ("rows", LROWS); ("columns", LCOLUMNS); ("rhs", LRHS); ("ranges", LRANGES); ("bounds", LBOUNDS);
   ("quadobj", LQUADOBJ); ("endata", LENDATA)]%string.
Fixpoint assoc {X} (s : string) (l : list (string * X)) : option X :=
  match l with [] => None | (t, x) :: l' => if String.eqb s t then Some x else assoc s l' end.
(** QPSReader.cpp:30-45; None is UNKNOWN *)
Definition rowType (c : ascii) : option rowt :=
  match lower_char c with
  | "e"%char => Some RE | "l"%char => Some RL | "g"%char => Some RG | "n"%char => Some RN | _ => None
  end.
(** QPSReader.cpp:47-63 *)
Definition bndType (s : string) : option bndt :=
  assoc s [("LO", BLO); ("UP", BUP); ("FX", BFX); ("FR", BFR); ("MI", BMI); ("PL", BPL)]%string.
(** QPSReader.cpp:77-100; the string s stays empty when nothing is read *)
Definition lineType (line : string) : lt :=
  match line with
  | EmptyString => LEMPTY
  | String c _ =>
      if Ascii.eqb c " " then NORMAL
      else match assoc (toLower (match get_word line with Some (w, _) => w | None => EmptyString end)) section_names with
           | Some t => t
           | None => LOTHER
           end
  end.

Section Reader.
Variable rdnum : string -> option (R * string).
(** is >> double *)
Definition get_num (s : string) : option (R * string) := match skip s with EmptyString => None | s' => rdnum s' end.

(** QPSReader.cpp:102-109 *)
Definition parseName (line : string) : outc string :=
  match get_word line with
  | Some (_, r) => match get_word r with Some (w, _) => Val w | None => Exc end
  | None => Exc
  end.
(** QPSReader.cpp:111-126 *)
Definition parseRow (line : string) : outc (rowt * string) :=
  match get_char line with
  | None => Exc
  | Some (c, r) => match rowType c with
                   | None => Exc
                   | Some t => match get_word r with Some (w, _) => Val (t, w) | None => Exc end
                   end
  end.
(** QPSReader.cpp:134-144: what is read and what remains *)
Definition readNamedValue1 (s : string) : outc (string * R * string) :=
  match get_word s with
  | None => Exc
  | Some (w, r) => match get_num r with Some (v, r) => Val (w, v, r) | None => Exc end
  end.
Definition readNamedValue2 (s : string) : outc (option (string * R)) :=
  match get_word s with
  | None => Val None                                   (* eof() *)
  | Some (_, EmptyString) => Val None                  (* eof() after the name *)
  | Some (w, r) => match get_num r with Some (v, _) => Val (Some (w, v)) | None => Exc end
  end.
(** QPSReader.cpp:146-151 *)
Record pvl := PV { v_name : string; v_1 : string * R; v_2 : option (string * R) }.
(** QPSReader.cpp:153-165; the message of line 159 reads lineName[c.line], an array of 11 entries *)
Definition parseValueLine (lineno : nat) (line : string) : outc pvl :=
  match get_word line with
  | None => oguard (lineno <? 11)%nat Exc
  | Some (w, r) =>
      try (n, v, r) <- readNamedValue1 r;
      try v2 <- readNamedValue2 r;
      Val (PV w (n, v) v2)
  end.

(** The object: QPSReader.h:97-115 (bigBnd is infinity).  An index -1 is [None]. *)
Record rd := RD {
  r_full : bool; r_name : string; r_line : nat; r_sect : lt;
  r_rows : list (string * (option nat * rowt)); r_cols : list (string * nat);
  r_rhsName : string; r_rangeName : string;
  r_C : list (nat * nat * R); r_G : list (nat * nat * R); r_a : list (nat * R);
  r_b : list (nat * R * rowt); r_r : list (nat * R * rowt); r_x : list (nat * R * bndt);
  r_cst : R; r_nRows : nat; r_obj : bool }.
(** QPSReader.cpp:170, QPSReader.h:97-115 *)
Definition rd_new (full : bool) : rd := RD full "" 0 LOTHER [] [] "" "" [] [] [] [] [] [] 0 0 false.

(** QPSReader.cpp:348-366 *)
Definition readRow (s : rd) (line : string) : outc rd :=
  try (t, name) <- parseRow line;
  match assoc name (r_rows s) with
  | Some _ => Exc
  | None =>
      match t with
      | RN => if r_obj s then Exc
              else Val (RD (r_full s) (r_name s) (r_line s) (r_sect s) (r_rows s ++ [(name, (None, RN))]) (r_cols s) (r_rhsName s) (r_rangeName s)
                           (r_C s) (r_G s) (r_a s) (r_b s) (r_r s) (r_x s) (r_cst s) (r_nRows s) true)
      | _ => Val (RD (r_full s) (r_name s) (r_line s) (r_sect s) (r_rows s ++ [(name, (Some (r_nRows s), t))]) (r_cols s) (r_rhsName s) (r_rangeName s)
                     (r_C s) (r_G s) (r_a s) (r_b s) (r_r s) (r_x s) (r_cst s) (S (r_nRows s)) (r_obj s))
      end
  end.
(** QPSReader.cpp:389-396; mapRow.at throws on an unknown name *)
Definition addValueToColumn (s : rd) (c : nat) (nv : string * R) : outc rd :=
  match assoc (fst nv) (r_rows s) with
  | None => Exc
  | Some (_, RN) => Val (RD (r_full s) (r_name s) (r_line s) (r_sect s) (r_rows s) (r_cols s) (r_rhsName s) (r_rangeName s)
                            (r_C s) (r_G s) (r_a s ++ [(c, snd nv)]) (r_b s) (r_r s) (r_x s) (r_cst s) (r_nRows s) (r_obj s))
  | Some (Some i, _) => Val (RD (r_full s) (r_name s) (r_line s) (r_sect s) (r_rows s) (r_cols s) (r_rhsName s) (r_rangeName s)
                            (r_C s ++ [(i, c, snd nv)]) (r_G s) (r_a s) (r_b s) (r_r s) (r_x s) (r_cst s) (r_nRows s) (r_obj s))
  | Some (None, _) => Und   (* an index -1 *)
  end.
Definition opt_do {X} (o : option X) (s : rd) (f : rd -> X -> outc rd) : outc rd := match o with Some x => f s x | None => Val s end.
(** QPSReader.cpp:368-387 *)
Definition readColumn (s : rd) (line : string) : outc rd :=
  try p <- parseValueLine (r_line s) line;
  let '(c, s) := match assoc (v_name p) (r_cols s) with
                 | Some c => (c, s)
                 | None => (List.length (r_cols s),
                            RD (r_full s) (r_name s) (r_line s) (r_sect s) (r_rows s) (r_cols s ++ [(v_name p, List.length (r_cols s))]) (r_rhsName s) (r_rangeName s)
                               (r_C s) (r_G s) (r_a s) (r_b s) (r_r s) (r_x s) (r_cst s) (r_nRows s) (r_obj s))
                 end in
  try s <- addValueToColumn s c (v_1 p);
  opt_do (v_2 p) s (fun s v => addValueToColumn s c v).
(** QPSReader.cpp:410-417 *)
Definition addValueToRHS (s : rd) (nv : string * R) : outc rd :=
  match assoc (fst nv) (r_rows s) with
  | None => Exc
  | Some (_, RN) => Val (RD (r_full s) (r_name s) (r_line s) (r_sect s) (r_rows s) (r_cols s) (r_rhsName s) (r_rangeName s)
                            (r_C s) (r_G s) (r_a s) (r_b s) (r_r s) (r_x s) (- snd nv) (r_nRows s) (r_obj s))
  | Some (Some i, t) => Val (RD (r_full s) (r_name s) (r_line s) (r_sect s) (r_rows s) (r_cols s) (r_rhsName s) (r_rangeName s)
                            (r_C s) (r_G s) (r_a s) (r_b s ++ [(i, snd nv, t)]) (r_r s) (r_x s) (r_cst s) (r_nRows s) (r_obj s))
  | Some (None, _) => Und
  end.
(** rhsName = n; rangeName = n *)
Definition set_rhsName (s : rd) (n : string) : rd :=
  RD (r_full s) (r_name s) (r_line s) (r_sect s) (r_rows s) (r_cols s) n (r_rangeName s)
     (r_C s) (r_G s) (r_a s) (r_b s) (r_r s) (r_x s) (r_cst s) (r_nRows s) (r_obj s).
Definition set_rangeName (s : rd) (n : string) : rd :=
  RD (r_full s) (r_name s) (r_line s) (r_sect s) (r_rows s) (r_cols s) (r_rhsName s) n
     (r_C s) (r_G s) (r_a s) (r_b s) (r_r s) (r_x s) (r_cst s) (r_nRows s) (r_obj s).
(** QPSReader.cpp:398-408 *)
Definition readRHS (s : rd) (line : string) : outc rd :=
  try p <- parseValueLine (r_line s) line;
  try s <- (if String.eqb (r_rhsName s) "" then Val (set_rhsName s (v_name p))
            else if String.eqb (r_rhsName s) (v_name p) then Val s else Exc);
  try s <- addValueToRHS s (v_1 p);
  opt_do (v_2 p) s addValueToRHS.
(** QPSReader.cpp:431-436 *)
Definition addValueToRanges (s : rd) (nv : string * R) : outc rd :=
  match assoc (fst nv) (r_rows s) with
  | None => Exc
  | Some (_, RN) => Exc
  | Some (Some i, t) => Val (RD (r_full s) (r_name s) (r_line s) (r_sect s) (r_rows s) (r_cols s) (r_rhsName s) (r_rangeName s)
                            (r_C s) (r_G s) (r_a s) (r_b s) (r_r s ++ [(i, snd nv, t)]) (r_x s) (r_cst s) (r_nRows s) (r_obj s))
  | Some (None, _) => Und
  end.
(** QPSReader.cpp:419-429 *)
Definition readRanges (s : rd) (line : string) : outc rd :=
  try p <- parseValueLine (r_line s) line;
  try s <- (if String.eqb (r_rangeName s) "" then Val (set_rangeName s (v_name p))
            else if String.eqb (r_rangeName s) (v_name p) then Val s else Exc);
  try s <- addValueToRanges s (v_1 p);
  opt_do (v_2 p) s addValueToRanges.
(** QPSReader.cpp:456-457, 462-463 *)
Definition addBound (s : rd) (col : string) (v : R) (t : bndt) : outc rd :=
  match assoc col (r_cols s) with
  | None => Exc
  | Some c => Val (RD (r_full s) (r_name s) (r_line s) (r_sect s) (r_rows s) (r_cols s) (r_rhsName s) (r_rangeName s)
                      (r_C s) (r_G s) (r_a s) (r_b s) (r_r s) (r_x s ++ [(c, v, t)]) (r_cst s) (r_nRows s) (r_obj s))
  end.
(** QPSReader.cpp:438-465; the value stored for FR (infinity) is never used, 0 stands for it *)
Definition readBounds (s : rd) (line : string) : outc rd :=
  match get_word line with
  | None => Exc
  | Some (st, r) =>
      match bndType st with
      | None => Exc
      | Some t =>
          match get_word r with
          | None => Exc
          | Some (_, r) =>
              match t with
              | BFR => match get_word r with None => Exc | Some (c, _) => addBound s c 0 BFR end
              | _ => try (c, v, _) <- readNamedValue1 r; addBound s c v t
              end
          end
      end
  end.
(** QPSReader.cpp:472-473, 476-477 *)
Definition addQuad (s : rd) (c : nat) (nv : string * R) : outc rd :=
  match assoc (fst nv) (r_cols s) with
  | None => Exc
  | Some r => Val (RD (r_full s) (r_name s) (r_line s) (r_sect s) (r_rows s) (r_cols s) (r_rhsName s) (r_rangeName s)
                      (r_C s) (r_G s ++ [(r, c, snd nv)]) (r_a s) (r_b s) (r_r s) (r_x s) (r_cst s) (r_nRows s) (r_obj s))
  end.
(** QPSReader.cpp:467-479 *)
Definition readQuadObj (s : rd) (line : string) : outc rd :=
  try p <- parseValueLine (r_line s) line;
  match assoc (v_name p) (r_cols s) with
  | None => Exc
  | Some c => try s <- addQuad s c (v_1 p); opt_do (v_2 p) s (fun s v => addQuad s c v)
  end.
(** QPSReader.cpp:317-346 *)
Definition processLine (s : rd) (line : string) : outc rd :=
  match r_sect s with
  | LNAME => Exc
  | LROWS => readRow s line
  | LCOLUMNS => readColumn s line
  | LRHS => readRHS s line
  | LRANGES => readRanges s line
  | LBOUNDS => readBounds s line
  | LQUADOBJ => readQuadObj s line
  | LENDATA => Exc
  | _ => Val s
  end.
(** context.section = t; problemName = n; ++context.line *)
Definition set_sect (s : rd) (t : lt) : rd :=
  RD (r_full s) (r_name s) (r_line s) t (r_rows s) (r_cols s) (r_rhsName s) (r_rangeName s)
     (r_C s) (r_G s) (r_a s) (r_b s) (r_r s) (r_x s) (r_cst s) (r_nRows s) (r_obj s).
Definition set_name (s : rd) (n : string) : rd :=
  RD (r_full s) n (r_line s) (r_sect s) (r_rows s) (r_cols s) (r_rhsName s) (r_rangeName s)
     (r_C s) (r_G s) (r_a s) (r_b s) (r_r s) (r_x s) (r_cst s) (r_nRows s) (r_obj s).
Definition next_line (s : rd) : rd :=
  RD (r_full s) (r_name s) (S (r_line s)) (r_sect s) (r_rows s) (r_cols s) (r_rhsName s) (r_rangeName s)
     (r_C s) (r_G s) (r_a s) (r_b s) (r_r s) (r_x s) (r_cst s) (r_nRows s) (r_obj s).
(** QPSReader.cpp:180-193, one line *)
Definition doLine (s : rd) (line : string) : outc rd :=
  let s := next_line s in
  match lineType line with
  | LOTHER | LEMPTY => Val s
  | NORMAL => processLine s line
  | t => let s := set_sect s t in
         match t with LNAME => try n <- parseName line; Val (set_name s n) | _ => Val s end
  end.
Fixpoint doLines (s : rd) (ls : list string) : outc rd :=
  match ls with [] => Val s | l :: ls' => try s <- doLine s l; doLines s ls' end.

(** ** Populating the data *)
(** writing one coefficient; Eigen asserts the range *)
Definition put1 {X} (n : nat) (f : nat -> X) (i : nat) (x : X) : outc (nat -> X) := oguard (i <? n)%nat (Val (setf f i x)).
Definition put2 (m n : nat) (M : rmat) (t : nat * nat * R) : outc rmat :=
  let '(i, j, v) := t in oguard ((i <? m) && (j <? n))%nat (Val (fun a b => if ((a =? i) && (b =? j))%nat then v else M a b)).
Fixpoint ofold {A X} (f : A -> X -> outc A) (a : A) (l : list X) : outc A :=
  match l with [] => Val a | x :: l' => try a <- f a x; ofold f a l' end.
(** QPSReader.cpp:214-234: the rows; the count of equalities is [nbEq] below *)
Definition row_init (m : nat) (b : (nat -> option R) * (nat -> option R)) (r : string * (option nat * rowt)) : outc ((nat -> option R) * (nat -> option R)) :=
  match snd r with
  | (_, RN) => Val b
  | (None, _) => Und
  | (Some i, RE) => try l <- put1 m (fst b) i (Some 0); try u <- put1 m (snd b) i (Some 0); Val (l, u)
  | (Some i, RL) => try l <- put1 m (fst b) i None; try u <- put1 m (snd b) i (Some 0); Val (l, u)
  | (Some i, RG) => try l <- put1 m (fst b) i (Some 0); try u <- put1 m (snd b) i None; Val (l, u)
  end.
(** QPSReader.cpp:235-255 *)
Definition rhs_fill (m : nat) (b : (nat -> option R) * (nat -> option R)) (t : nat * R * rowt) : outc ((nat -> option R) * (nat -> option R)) :=
  let '(i, v, ty) := t in
  match ty with
  | RE => try l <- put1 m (fst b) i (Some v); try u <- put1 m (snd b) i (Some v); Val (l, u)
  | RL => try l <- put1 m (fst b) i None; try u <- put1 m (snd b) i (Some v); Val (l, u)
  | RG => try l <- put1 m (fst b) i (Some v); try u <- put1 m (snd b) i None; Val (l, u)
  | RN => Und
  end.
(** QPSReader.cpp:256-277; arithmetic on an infinite bound is not represented (it does not occur: C58_never_undefined) *)
Definition range_fill (m : nat) (b : (nat -> option R) * (nat -> option R)) (t : nat * R * rowt) : outc ((nat -> option R) * (nat -> option R)) :=
  let '(i, v, ty) := t in
  match ty with
  | RE => if Rleb 0 v then match snd b i with Some x => try u <- put1 m (snd b) i (Some (x + v)); Val (fst b, u) | None => Und end
          else match fst b i with Some x => try l <- put1 m (fst b) i (Some (x + v)); Val (l, snd b) | None => Und end
  | RL => match snd b i with Some x => try l <- put1 m (fst b) i (Some (x - Rabs v)); Val (l, snd b) | None => Und end
  | RG => match fst b i with Some x => try u <- put1 m (snd b) i (Some (x + Rabs v)); Val (fst b, u) | None => Und end
  | RN => Und
  end.
(** QPSReader.cpp:279-308 *)
Definition bnd_fill (n : nat) (b : (nat -> option R) * (nat -> option R)) (t : nat * R * bndt) : outc ((nat -> option R) * (nat -> option R)) :=
  let '(i, v, ty) := t in
  match ty with
  | BLO => try l <- put1 n (fst b) i (Some v); Val (l, snd b)
  | BUP => try u <- put1 n (snd b) i (Some v); Val (fst b, u)
  | BFX => try l <- put1 n (fst b) i (Some v); try u <- put1 n (snd b) i (Some v); Val (l, u)
  | BFR => try l <- put1 n (fst b) i None; try u <- put1 n (snd b) i None; Val (l, u)
  | BMI => try l <- put1 n (fst b) i None; Val (l, snd b)
  | BPL => try u <- put1 n (snd b) i None; Val (fst b, u)
  end.
(** QPSReader.h:17-24 *)
Record props := PP { pp_nbVar : nat; pp_nbCstr : nat; pp_nbEq : nat; pp_useBounds : bool; pp_hasFixed : bool }.
(** the tests of lines 219, 290, 312 *)
Definition is_RE (r : string * (option nat * rowt)) : bool := match snd (snd r) with RE => true | _ => false end.
Definition is_FX (t : nat * R * bndt) : bool := match snd t with BFX => true | _ => false end.
Definition finite_in (n : nat) (b : nat -> option R) : bool := existsb (fun i => match b i with Some _ => true | None => false end) (seq 0 n).
(** QPSReader.cpp:195-314 *)
Definition populate (ord : list (string * (option nat * rowt)) -> list (string * (option nat * rowt))) (s : rd) : outc (qpproblem fcstr * props) :=
  let n := List.length (r_cols s) in let m := r_nRows s in
  try G <- ofold (put2 n n) (fun _ _ => 0) (r_G s);
  let G := if r_full s then fun i j => if (i <? j)%nat then G j i else G i j else G in
  try a <- ofold (fun a t => put1 n a (fst t) (snd t)) (fun _ => 0) (r_a s);
  try C <- ofold (put2 m n) (fun _ _ => 0) (r_C s);
  try b <- ofold (row_init m) (fun _ => Some 0, fun _ => Some 0) (ord (r_rows s));
  try b <- ofold (rhs_fill m) b (r_b s);
  try b <- ofold (range_fill m) b (r_r s);
  try x <- ofold (bnd_fill n) (fun _ => Some 0, fun _ => None) (r_x s);
  Val (QP (FC (DM m n C) (BV m (fst b)) (BV m (snd b)) (BV n (fst x)) (BV n (snd x)) false) (DM n n G) (DV n a) (r_cst s),
       PP n m (List.length (filter is_RE (r_rows s))) (finite_in n (fst x) || finite_in n (snd x)) (existsb is_FX (r_x s))).
(** QPSReader.cpp:172-315: reading the file of content [txt] *)
Definition read ord (s : rd) (txt : string) : outc (qpproblem fcstr * props * rd) :=
  try s <- doLines s (getlines txt);
  try q <- populate ord s;
  Val (q, s).
End Reader.

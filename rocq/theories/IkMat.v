(** Model of the reader of matrices and inverse-kinematics problems used by the tests of the block solver
    (tests/IKmatReader.h, tests/IKmatReader.cpp).

    A stream is the list of the lines that remain; [std::getline] takes one or fails.  As in Qps.v, [is >> double]
    and [is >> int] are the parameters [rdnum] and [rdint], applied after the blanks are skipped; values are real
    numbers.  Outcomes: a value, an exception, undefined behaviour (a failed Eigen assertion).  The opening of the
    file and the exhaustion of the memory by a huge number of rows are left out. *)
From Coq Require Import List Arith ZArith Lia Bool Ascii String Reals.
From Verif Require Import Qps.
Import ListNotations.

(** An Eigen::MatrixXd by rows: the number of columns, and the rows *)
Record rowmat := RowMat { m_cols : nat; m_rows : list (list R) }.

Section Reader.
Variable rdnum : string -> option (R * string).
Variable rdint : string -> option Z.

(** IKmatReader.cpp:11-17: the numbers of a line, up to the first extraction that fails; the fuel is the length
    of the line, an extraction takes at least one character *)
Fixpoint read_nums (fuel : nat) (s : string) : list R :=
  match fuel with
  | O => []
  | S f => match rdnum (skip s) with Some (v, r) => v :: read_nums f r | None => [] end
  end.
Definition readVecLine (line : string) : list R := read_nums (S (String.length line)) line.

(** IKmatReader.cpp:19-31 *)
Definition readIntLine (ls : list string) : outc (Z * list string) :=
  match ls with
  | [] => Exc
  | l :: ls => match rdint (skip l) with Some k => Val (k, ls) | None => Exc end
  end.
(** IKmatReader.cpp:33-41; [compare(5, ...)] throws std::out_of_range when the line has less than 5 characters,
    and compares the (at most) [name.size()] characters from position 5 on *)
Definition isDataName (line name : string) : outc bool :=
  match line with
  | String "=" _ => if (String.length line <? 5)%nat then Exc else Val (String.eqb (substring 5 (String.length name) line) name)
  | _ => Val false
  end.
(** IKmatReader.cpp:43-52 *)
Definition readDataNameLine (name : string) (ls : list string) : outc (unit * list string) :=
  match ls with
  | [] => Exc
  | l :: ls => try b <- isDataName l name; if b then Val (tt, ls) else Exc
  end.

(** IKmatReader.cpp:61-66: all the remaining lines; [M.row(i) = rows[i]] asserts that the sizes agree *)
Definition all_width (k : nat) (rs : list (list R)) : bool := forallb (fun r => (List.length r =? k)%nat) rs.
Definition readRest (ls : list string) : outc (rowmat * list string) :=
  let rs := map readVecLine ls in
  let k := match rs with [] => 0%nat | r :: _ => List.length r end in
  oguard (all_width k rs) (Val (RowMat k rs, [])).
(** IKmatReader.cpp:84-91: rows 1 to nbRows-1 *)
Fixpoint readRows (cnt k : nat) (ls : list string) : outc (list (list R) * list string) :=
  match cnt with
  | O => Val ([], ls)
  | S c =>
      match ls with
      | [] => Exc
      | l :: ls =>
          let r := readVecLine l in
          oguard (List.length r =? k)%nat (try p <- readRows c k ls; let '(rs, ls) := p in Val (r :: rs, ls))
      end
  end.
(** IKmatReader.cpp:54-94 *)
Definition readMat (nbRows : Z) (forceVec : bool) (ls : list string) : outc (rowmat * list string) :=
  if (nbRows <? 0)%Z then readRest ls
  else if (nbRows =? 0)%Z then
    match ls with [] => Exc | _ :: ls => Val (RowMat (if forceVec then 1 else 0) [], ls) end
  else
    match ls with
    | [] => Exc
    | l :: ls =>
        let r := readVecLine l in
        try p <- readRows (Z.to_nat nbRows - 1) (List.length r) ls;
        let '(rs, ls) := p in Val (RowMat (List.length r) (r :: rs), ls)
    end.
(** IKmatReader.cpp:96-105, the file being open *)
Definition readMatFile (txt : string) : outc rowmat := try p <- readMat (-1) false (getlines txt); Val (fst p).

(** The conversion of a MatrixXd to a VectorXd asserts that it has one column (Eigen/src/Core/PlainObjectBase.h,
    resizeLike then resize; a 1 x k matrix passes the former and not the latter) *)
Definition to_vector (M : rowmat) : outc (list R) := oguard (m_cols M =? 1)%nat (Val (List.concat (m_rows M))).

(** a section of the file: its title, then its rows *)
Definition readSection (name : string) (n : Z) (forceVec : bool) (ls : list string) : outc (rowmat * list string) :=
  try p <- readDataNameLine name ls; readMat n forceVec (snd p).
Definition readVecSection (name : string) (n : Z) (forceVec : bool) (ls : list string) : outc (list R * list string) :=
  try p <- readSection name n forceVec ls; try v <- to_vector (fst p); Val (v, snd p).
Definition readIntSection (name : string) (ls : list string) : outc (Z * list string) :=
  try p <- readDataNameLine name ls; readIntLine (snd p).

Record ikpb := IK { ikQ : rowmat; ikc : list R; ikA : rowmat; ikb : list R; ikC : rowmat; ikd : list R; ikxl : list R; ikxu : list R }.
(** IKmatReader.cpp:107-146, the file being open; also the lines left unread *)
Definition readIKLines (ls : list string) : outc (ikpb * list string) :=
  try p <- readIntSection "dim_var" ls; let '(n, ls) := p in
  try p <- readIntSection "dim_eq" ls; let '(me, ls) := p in
  try p <- readIntSection "dim_ineq" ls; let '(mi, ls) := p in
  try p <- readSection "Q" n false ls; let '(Q, ls) := p in
  try p <- readVecSection "c" n false ls; let '(c, ls) := p in
  try p <- readSection "A" me false ls; let '(A, ls) := p in
  try p <- readVecSection "b" me true ls; let '(b, ls) := p in
  try p <- readSection "C" mi false ls; let '(C, ls) := p in
  try p <- readVecSection "d" mi true ls; let '(d, ls) := p in
  try p <- readVecSection "x_min" n true ls; let '(xl, ls) := p in
  try p <- readVecSection "x_max" n true ls; let '(xu, ls) := p in
  Val (IK Q c A b C d xl xu, ls).
Definition readIKPbFile (txt : string) : outc ikpb := try p <- readIKLines (getlines txt); Val (fst p).
End Reader.

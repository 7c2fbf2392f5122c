(** Model of the text level of ctldl/fileio: std::getline and the std::sscanf calls.

    Simplifications: of the formats of %lf only decimal numbers are modelled (no
    hexadecimal numbers, no "inf" and "nan"); the locale is "C". *)
From Coq Require Import List Arith Bool NArith ZArith String Ascii.
From Flocq Require Import BinarySingleNaN.
From Verif Require Import Base ModelIeee.
Import ListNotations.
Local Open Scope nat_scope.

(** std::getline in a loop (ctldl/fileio/mtx_read_header.cpp:19,
    ctldl/fileio/mtx_foreach_entry.cpp:24): the lines without their line ends; a line end
    at the end of the file does not start another line *)
Fixpoint lines_from (line : string) (text : string) : list string :=
  match text with
  | EmptyString => match line with EmptyString => [] | _ => [line] end
  | String c text =>
      if Ascii.eqb c "010" then line :: lines_from EmptyString text
      else lines_from (line ++ String c EmptyString)%string text
  end.
Definition getlines (text : string) : list string := lines_from EmptyString text.

(** std::isspace *)
Definition isSpace (c : ascii) : bool :=
  let k := nat_of_ascii c in (k =? 32) || ((9 <=? k) && (k <=? 13)).
Definition digit (c : ascii) : option N :=
  let k := N_of_ascii c in
  if ((48 <=? k) && (k <=? 57))%N then Some (k - 48)%N else None.

Fixpoint skipSpaces (l : string) : string :=
  match l with
  | String c l' => if isSpace c then skipSpaces l' else l
  | EmptyString => l
  end.

(** optional sign *)
Definition scanSign (l : string) : bool * string :=
  match l with
  | String c l' => if Ascii.eqb c "-" then (true, l') else if Ascii.eqb c "+" then (false, l') else (false, l)
  | EmptyString => (false, l)
  end.

(** digits appended to the number [acc]; how many; rest *)
Fixpoint scanDigits (acc : N) (count : nat) (l : string) : N * nat * string :=
  match l with
  | String c l' => match digit c with
                   | Some d => scanDigits (10 * acc + d) (count + 1) l'
                   | None => (acc, count, l)
                   end
  | EmptyString => (acc, count, l)
  end.

(** %zu: like strtoull, which accepts a sign, negates modulo 2^64 and returns the largest
    number if the value is out of range (glibc; the C standard leaves this case undefined
    for sscanf) *)
Definition scanSize (l : string) : option (N * string) :=
  let (neg, l) := scanSign (skipSpaces l) in
  let '(n, count, l) := scanDigits 0 0 l in
  match count with
  | 0 => None
  | _ => Some (if (2 ^ 64 <=? n)%N then 2 ^ 64 - 1
               else if neg then (2 ^ 64 - n) mod 2 ^ 64 else n, l)%N
  end.

(** a decimal number: sign, m and e for m * 10^e *)
Definition decimal := (bool * N * Z)%type.

(** exponent; an "e" without digits is a prefix of a number, but no number *)
Definition scanExponent (l : string) : option (Z * string) :=
  match l with
  | String c l' =>
      if Ascii.eqb c "e" || Ascii.eqb c "E" then
        let (neg, l') := scanSign l' in
        let '(n, count, l') := scanDigits 0 0 l' in
        match count with
        | 0 => None
        | _ => Some (if neg then - Z.of_N n else Z.of_N n, l')%Z
        end
      else Some (0%Z, l)
  | EmptyString => Some (0%Z, l)
  end.

(** %lf *)
Definition scanDecimal (l : string) : option (decimal * string) :=
  let (neg, l) := scanSign (skipSpaces l) in
  let '(m, count, l) := scanDigits 0 0 l in
  let '(m, count', frac, l) :=
    match l with
    | String c l' =>
        if Ascii.eqb c "." then
          let '(m, frac, l') := scanDigits m 0 l' in (m, count + frac, frac, l')
        else (m, count, 0, l)
    | EmptyString => (m, count, 0, l)
    end in
  match count' with
  | 0 => None
  | _ => match scanExponent l with
         | Some (e, l) => Some ((neg, m, e - Z.of_nat frac)%Z, l)
         | None => None
         end
  end.

(** ctldl/fileio/mtx_read_header.cpp:26-27: std::sscanf(line, " %zu %zu %zu") with three
    successful conversions; the rest of the line is ignored. White space in the format
    matches any amount of white space, also none, and %zu skips white space anyway. *)
Definition scanHeader (l : string) : option (nat * nat * nat) :=
  match scanSize l with
  | Some (a, l) =>
      match scanSize l with
      | Some (b, l) =>
          match scanSize l with
          | Some (c, _) => Some (N.to_nat a, N.to_nat b, N.to_nat c)
          | None => None
          end
      | None => None
      end
  | None => None
  end.

(** ctldl/fileio/mtx_foreach_entry.cpp:28-29: std::sscanf(line, " %zu %zu %lf"); [conv]
    gives the value of a decimal number *)
Definition scanEntry {F} (conv : decimal -> F) (l : string) : option (nat * nat * F) :=
  match scanSize l with
  | Some (a, l) =>
      match scanSize l with
      | Some (b, l) =>
          match scanDecimal l with
          | Some (v, _) => Some (N.to_nat a, N.to_nat b, conv v)
          | None => None
          end
      | None => None
      end
  | None => None
  end.

(** the conversion to double as glibc does it: correctly rounded *)
Definition decimalToDouble (d : decimal) : ieee 53 1024 :=
  let '(neg, m, e) := d in
  match m with
  | N0 => B754_zero neg
  | Npos m =>
      if (0 <=? e)%Z then
        binary_normalize 53 1024 prec64 emax64 mode_NE
          (let z := (Zpos m * 10 ^ e)%Z in if neg then - z else z)%Z 0 neg
      else
        SF2B _ (proj1 (Bdiv_correct_aux 53 1024 prec64 emax64 mode_NE neg m 0 false (Z.to_pos (10 ^ - e)) 0))
  end.

(** Specification of the text of matrix market files. *)
From Coq Require Import List NArith ZArith Reals String Ascii Decimal DecimalString.
From Flocq Require Import Core.Core.
From Verif Require Import ModelText.
Import ListNotations.
Local Open Scope string_scope.

Definition white (c : ascii) : Prop := In c ["009"; "010"; "011"; "012"; "013"; " "]%char.
Fixpoint allChars (P : ascii -> Prop) (s : string) : Prop :=
  match s with String c s => P c /\ allChars P s | EmptyString => True end.
Definition digits (u : uint) : string := NilEmpty.string_of_uint u.

(** [l] consists of [tokens] that are separated by white space, white space in front of them,
    and anything after white space behind them *)
Definition lineOf (l : string) (s1 s2 s3 : string) : Prop :=
  exists w1 w2 w3 rest, l = w1 ++ s1 ++ w2 ++ s2 ++ w3 ++ s3 ++ rest /\
    allChars white w1 /\ allChars white w2 /\ allChars white w3 /\ w2 <> "" /\ w3 <> "" /\
    match rest with String c _ => white c | EmptyString => True end.

(** an index or a size: decimal digits *)
Definition sizeText (s : string) (n : nat) : Prop :=
  exists u, s = digits u /\ u <> Nil /\ N.of_uint u = N.of_nat n /\ (N.of_uint u < 2 ^ 64)%N.

Definition signText (s : string) (neg : bool) : Prop :=
  match neg with true => s = "-" | false => s = "" \/ s = "+" end.
Definition signed (neg : bool) (z : Z) : Z := if neg then (- z)%Z else z.

(** a decimal number m * 10^e: digits, possibly a point and more digits, possibly an exponent *)
Definition decimalText (s : string) (d : decimal) : Prop :=
  let '(neg, m, e) := d in
  exists sg ui frac uf ex x, s = sg ++ digits ui ++ frac ++ ex /\
    signText sg neg /\
    ((frac = "" /\ uf = Nil) \/ frac = "." ++ digits uf) /\
    (ui <> Nil \/ uf <> Nil) /\
    ((ex = "" /\ x = 0%Z) \/
     exists c sx negx ux, ex = String c (sx ++ digits ux) /\ (c = "e" \/ c = "E")%char /\
       signText sx negx /\ ux <> Nil /\ x = signed negx (Z.of_N (N.of_uint ux))) /\
    m = (N.of_uint ui * 10 ^ N.of_nat (nb_digits uf) + N.of_uint uf)%N /\
    e = (x - Z.of_nat (nb_digits uf))%Z.

(** the entries with the numbers that the decimal numbers are converted to *)
Definition withValues {F} (conv : decimal -> F) (es : list (nat * nat * decimal)) : list (nat * nat * F) :=
  map (fun e => (fst e, conv (snd e))) es.

Definition headerText (l : string) (nr nc nnz : nat) : Prop :=
  exists s1 s2 s3, lineOf l s1 s2 s3 /\ sizeText s1 nr /\ sizeText s2 nc /\ sizeText s3 nnz.
(** row and column start from zero *)
Definition entryText (l : string) (e : nat * nat * decimal) : Prop :=
  let '(r, c, d) := e in
  exists s1 s2 s3, lineOf l s1 s2 s3 /\ sizeText s1 (r + 1) /\ sizeText s2 (c + 1) /\ decimalText s3 d.

(** lines, each with a line end; the one of the last line may be missing *)
Definition newline : ascii := "010".
Definition noNewline (l : string) : Prop := allChars (fun c => c <> newline) l.
Fixpoint unlines (ls : list string) : string :=
  match ls with [] => "" | l :: ls => l ++ String newline (unlines ls) end.
Definition textOf (text : string) (ls : list string) : Prop :=
  Forall noNewline ls /\
  (text = unlines ls \/ exists ls' l, ls = (ls' ++ [l])%list /\ l <> "" /\ text = unlines ls' ++ l).

(** a matrix market file with the given dimensions and entries *)
Definition mtxText (text : string) (nr nc : nat) (es : list (nat * nat * decimal)) : Prop :=
  exists comments header rest, textOf text (comments ++ header :: rest) /\
    Forall (fun l => exists l', l = String "%" l') comments /\
    headerText header nr nc (List.length es) /\
    Forall2 (fun l e => entryText l e /\ (fst (fst e) < nr)%nat /\ (snd (fst e) < nc)%nat) rest es.

(** ** lines that are no entries *)
Definition blankLine (l : string) : Prop := allChars white l.
(** white space, a sign, digits *)
Definition negativeFirst (nr : nat) (l : string) : Prop :=
  exists w u rest, l = w ++ "-" ++ digits u ++ rest /\ allChars white w /\ u <> Nil /\
    match rest with String c _ => white c | EmptyString => True end /\
    (N.of_uint u + N.of_nat nr < 2 ^ 64)%N.
Definition badFirst (nr : nat) (l : string) : Prop :=
  exists w u rest, l = w ++ digits u ++ rest /\ allChars white w /\ u <> Nil /\
    match rest with String c _ => white c | EmptyString => True end /\
    (N.of_uint u = 0 \/ N.of_nat nr < N.of_uint u)%N.
(** one or two numbers only *)
Definition fewNumbers (l : string) : Prop :=
  exists w1 u1 w2 u2 w3, l = w1 ++ digits u1 ++ w2 ++ digits u2 ++ w3 /\
    allChars white w1 /\ allChars white w2 /\ allChars white w3 /\ u1 <> Nil /\
    (N.of_uint u1 < 2 ^ 64)%N /\ (N.of_uint u2 < 2 ^ 64)%N /\ (u2 <> Nil -> w2 <> "").

Definition badLine (nr : nat) (l : string) : Prop :=
  blankLine l \/ (exists l', l = String "%" l') \/ negativeFirst nr l \/ badFirst nr l \/ fewNumbers l.

(** a writer *)
Definition writeSize (n : nat) : string := digits (N.to_uint (N.of_nat n)).
Definition writeDecimal (d : decimal) : string :=
  let '(neg, m, e) := d in
  (if neg then "-" else "") ++ digits (N.to_uint m) ++
  "e" ++ (if (e <? 0)%Z then "-" else "") ++ digits (N.to_uint (Z.to_N (Z.abs e))).
Definition writeEntry (e : nat * nat * decimal) : string :=
  let '(r, c, d) := e in writeSize (r + 1) ++ " " ++ writeSize (c + 1) ++ " " ++ writeDecimal d.
Definition writeMtx (nr nc : nat) (es : list (nat * nat * decimal)) : string :=
  unlines ("%%MatrixMarket matrix coordinate real symmetric" ::
           (writeSize nr ++ " " ++ writeSize nc ++ " " ++ writeSize (List.length es)) ::
           map writeEntry es).

(** the number *)
Definition decimalValue (d : decimal) : R :=
  let '(neg, m, e) := d in ((if neg then - IZR (Z.of_N m) else IZR (Z.of_N m)) * powerRZ 10 e)%R.

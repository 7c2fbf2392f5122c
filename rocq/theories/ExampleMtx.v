(** A number scanner and matrix market files for the examples. *)
From Coq Require Import String Ascii List Arith Bool QArith Qcanon.
From Verif Require Import Base ModelPerm ModelSparsity ModelSymbolic ModelNumeric ModelArrow ModelMtx
  ExampleData ExampleArrow.
Import ListNotations.
Local Open Scope nat_scope.

Definition digitOf (c : ascii) : option nat :=
  let k := nat_of_ascii c in
  if (48 <=? k) && (k <=? 57) then Some (k - 48) else None.

Fixpoint readDigits (acc : nat) (l : string) : nat * string :=
  match l with
  | EmptyString => (acc, EmptyString)
  | String c l' => match digitOf c with
                   | Some d => readDigits (10 * acc + d) l'
                   | None => (acc, l)
                   end
  end.

Fixpoint readNumber (l : string) : option (nat * string) :=
  match l with
  | EmptyString => None
  | String c l' => match digitOf c with
                   | Some d => Some (readDigits d l')
                   | None => if Ascii.eqb c " " then readNumber l' else None
                   end
  end.

Definition scan3 (l : string) : option (nat * nat * nat) :=
  match readNumber l with
  | None => None
  | Some (a, l) => match readNumber l with
                   | None => None
                   | Some (b, l) => match readNumber l with
                                    | None => None
                                    | Some (c, _) => Some (a, b, c)
                                    end
                   end
  end.

Definition scanQ (l : string) : option (nat * nat * Qc) :=
  match scan3 l with
  | Some (r, c, v) => Some (r, c, Q2Qc (inject_Z (Z.of_nat v)))
  | None => None
  end.

Definition exQ (v : nat) : Qc := Q2Qc (inject_Z (Z.of_nat v)).

(** 12 rows for [exA]: start 0,1; tridiagonal blocks 2,3,4 and 5,6,7; link 8,9;
    outer 10,11 *)
Definition exFileEntries : list (nat * nat * nat) :=
  [(0,0,7); (1,0,1); (1,1,5); (2,1,2); (4,0,3); (11,0,4);
   (2,2,7); (3,3,9); (4,4,5); (4,2,1); (5,5,17); (6,6,9); (7,7,8); (5,4,99); (7,5,1);
   (5,4,1); (6,2,2); (8,6,3); (8,8,7); (9,9,9); (9,8,5); (10,9,2);
   (11,4,3); (11,7,4); (10,10,17); (11,11,19)].
Definition exEs : list (nat * nat * Qc) :=
  map (fun e => let '(r, c, v) := e in (r, c, exQ v)) exFileEntries.

Definition exFile : list string :=
  ["%%MatrixMarket matrix coordinate real symmetric"; "%"; "12 12 26";
   "1 1 7"; "2 1 1"; "2 2 5"; "3 2 2"; "5 1 3"; "12 1 4";
   "3 3 7"; "4 4 9"; " 5 5 5"; "5 3 1"; "6 6 17"; "7 7 9"; "8 8 8"; "6 5 99"; "8 6 1";
   "6 5 1"; "7 3 2"; "9 7 3"; "9 9 7"; "10 10 9"; "10 9 5"; "11 10 2";
   "12 5 3"; "12 8 4"; "11 11 17"; "12 12 19"]%string.

(** a factorization without start, link and outer block *)
Definition noStart (dt dO : nat) : sp_start := mkSS (mkSp 0 0 []) (mkSp dt 0 []) (mkSp dO 0 []) [].
Definition noLink (dt dO : nat) : sp_link := mkSL (mkSp 0 dt []) (mkSp 0 0 []) (mkSp dO 0 []) [].
(** 1x1 blocks *)
Definition exFar : arrow_sp := mkAS (noStart 1 0)
  (mkST (mkSp 1 1 [(0,0)]) (mkSp 1 1 [(0,0)]) [0]) (noLink 1 0)
  (mkSO (mkSp 0 1 []) (mkSp 0 0 []) []).
Definition exFarFile : list string := ["3 3 2"; "1 1 2"; "3 1 5"]%string.
Definition exFarEs : list (nat * nat * Qc) := [(0, 0, exQ 2); (2, 0, exQ 5)].
(** more outer rows than rows of the tridiagonal blocks *)
Definition exWide : arrow_sp := mkAS (noStart 1 2)
  (mkST (mkSp 1 1 [(0,0)]) (mkSp 1 1 []) [0]) (noLink 1 2)
  (mkSO (mkSp 2 1 [(0,0); (1,0)]) (mkSp 2 2 [(0,0); (1,1)]) [0;1]).
Definition exWideFile : list string := ["3 3 1"; "3 1 5"]%string.
Definition exWideEs : list (nat * nat * Qc) := [(2, 0, exQ 5)].
(** an entry in the start columns below the first tridiagonal block *)
Definition exBelowFile : list string := ["12 12 2"; "1 1 7"; "6 1 3"]%string.
Definition exBelowEs : list (nat * nat * Qc) := [(0, 0, exQ 7); (5, 0, exQ 3)].
(** an entry that is not declared *)
Definition exBadFile : list string := ["12 12 2"; "1 1 7"; "9 5 3"]%string.
Definition exBadEs : list (nat * nat * Qc) := [(0, 0, exQ 7); (8, 4, exQ 3)].

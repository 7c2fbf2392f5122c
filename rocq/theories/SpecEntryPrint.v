(** Reading a printed entry, without reference to the printing. *)
From Coq Require Import String Ascii Arith List Bool.
Local Open Scope string_scope.
Local Open Scope nat_scope.

Definition digitValue (c : ascii) : option nat :=
  let v := nat_of_ascii c - 48 in
  if (48 <=? nat_of_ascii c) && (v <=? 9) then Some v else None.

(** the value of acc followed by the digits at the front of s, and what follows them *)
Fixpoint readDigits (acc : nat) (s : string) : nat * string :=
  match s with
  | EmptyString => (acc, s)
  | String c s' => match digitValue c with Some d => readDigits (10 * acc + d) s' | None => (acc, s) end
  end.

(** a number in decimal digits without leading zeros *)
Definition readSize (s : string) : option (nat * string) :=
  match s with
  | EmptyString => None
  | String c s' =>
      match digitValue c with
      | None => None
      | Some 0 => match s' with
                  | String c' _ => match digitValue c' with Some _ => None | None => Some (0, s') end
                  | EmptyString => Some (0, s')
                  end
      | Some d => Some (readDigits d s')
      end
  end.

(** the rest of s if it starts with p *)
Fixpoint skip (p s : string) : option string :=
  match p, s with
  | EmptyString, _ => Some s
  | String a p', String b s' => if Ascii.eqb a b then skip p' s' else None
  | _, _ => None
  end.

Definition readEntry (s : string) : option ((nat * nat) * string) :=
  match skip "Entry{.row_index=" s with
  | None => None
  | Some s => match readSize s with
    | None => None
    | Some (r, s) => match skip ", .col_index=" s with
      | None => None
      | Some s => match readSize s with
        | None => None
        | Some (c, s) => match skip "}" s with None => None | Some s => Some ((r, c), s) end
        end
      end
    end
  end.

(** several entries after another with a separator in between, as for a list *)
Fixpoint readEntries (sep : string) (n : nat) (s : string) : option (list (nat * nat) * string) :=
  match n with
  | 0 => Some (nil, s)
  | S n => match readEntry s with
    | None => None
    | Some (e, s) => match skip sep s with
      | None => None
      | Some s => match readEntries sep n s with None => None | Some (l, s) => Some (e :: l, s)%list end
      end
    end
  end.

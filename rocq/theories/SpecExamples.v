(** Specification of what the example programs with fixed matrices print. *)
From Coq Require Import List NArith ZArith QArith Qabs Qcanon String.
From Flocq Require Import BinarySingleNaN.
From Verif Require Import Base ModelNumeric ModelIeee SpecNumeric SpecText SpecProgram ExampleData.
Import ListNotations.

(** the exact value of a finite double (0 for others) *)
Definition doubleQ (x : ieee 53 1024) : Qc :=
  match x with
  | B754_finite s m e _ =>
      let z := if s then Zneg m else Zpos m in
      if (0 <=? e)%Z then Q2Qc (inject_Z (z * 2 ^ e)) else Q2Qc (z # Z.to_pos (2 ^ (- e)))
  | _ => 0%Qc
  end.

(** xs solves the system M xs = b in rational numbers, and nothing else does *)
Definition solvesQ {I : Type} (all : list I) (M : I -> I -> Qc) (b xs : I -> Qc) : Prop :=
  forall g, In g all -> suml Oq all (fun h => (M g h * xs h)%Qc) = b g.
Definition onlySolutionQ {I : Type} (all : list I) (M : I -> I -> Qc) (b xs : I -> Qc) : Prop :=
  solvesQ all M b xs /\ forall ys, solvesQ all M b ys -> forall g, In g all -> ys g = xs g.

(** the printed number, in millionths, differs from x by at most [tol] millionths *)
Definition printsClose (l : string) (x : Qc) (tol : Q) : Prop :=
  exists neg q, fixedText l neg q /\
    (Qabs (inject_Z (SpecText.signed neg (Z.of_N q)) - 1000000 * this x) <= tol)%Q.

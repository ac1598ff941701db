(* The text of a floating point number with a given number of digits. *)
From Coq Require Import List Ascii ZArith Reals.
From Verif Require Import Model.StdString Model.FloatText Spec.Strings Spec.Decimal Spec.FloatText Spec.Ieee.
Import ListNotations.
Local Open Scope R_scope.

(* P digits d, the first of weight 10^X *)
Definition digits (P : nat) (d : Z) : Prop := (10 ^ (Z.of_nat P - 1) <= d < 10 ^ Z.of_nat P)%Z.
Definition scaled10 (P : nat) (d X : Z) : R := IZR d * powerRZ 10 (X - Z.of_nat P + 1).
(* d and X make the number with P digits closest to r; of two, the one that is an
   even multiple of their distance *)
Definition NearDecimal (P : nat) (r : R) (d X : Z) : Prop :=
  digits P d /\ forall d' X', digits P d' -> scaled10 P d' X' <> scaled10 P d X ->
    Rabs (scaled10 P d X - r) < Rabs (scaled10 P d' X' - r) \/
    Rabs (scaled10 P d X - r) = Rabs (scaled10 P d' X' - r) /\ exists k, scaled10 P d X = 2 * IZR k * (scaled10 P d X - scaled10 P d' X').

(* decimals without zeros at the end, and without a point if none are left *)
Definition Zeros (s : str) : Prop := Forall (eq "0"%char) s.
Inductive Decimals : str -> str -> Prop :=
| Dec_none z : Zeros z -> Decimals z []
| Dec_some a c z : c <> "0"%char -> Zeros z -> Decimals (a ++ c :: z) ("."%char :: a ++ [c]).
(* the exponent, with a sign and at least two digits *)
Inductive Exponent : Z -> str -> Prop :=
| Exp_intro X ds : Forall IsDigit ds -> digits_value ds = Z.abs X -> (length ds = 2%nat \/ (2 < length ds)%nat /\ nth 0 ds "0"%char <> "0"%char) ->
    Exponent X ("e"%char :: (if Z.ltb X 0 then "-"%char else "+"%char) :: ds).
(* "%g" *)
Inductive General (P : nat) (d X : Z) : str -> Prop :=
| Gen_whole ip fp s : (0 <= X < Z.of_nat P)%Z -> Forall IsDigit (ip ++ fp) -> length (ip ++ fp) = P -> digits_value (ip ++ fp) = d ->
    Z.of_nat (length ip) = (X + 1)%Z -> Decimals fp s -> General P d X (ip ++ s)
| Gen_small ds z s : (-4 <= X < 0)%Z -> Forall IsDigit ds -> length ds = P -> digits_value ds = d ->
    Zeros z -> Z.of_nat (length z) = (- X - 1)%Z -> Decimals (z ++ ds) s -> General P d X ("0"%char :: s)
| Gen_exp c fp s x : (X < -4 \/ Z.of_nat P <= X)%Z -> Forall IsDigit (c :: fp) -> length (c :: fp) = P -> digits_value (c :: fp) = d ->
    Decimals fp s -> Exponent X x -> General P d X (c :: s ++ x).

(* nothing, or whitespace first *)
Definition Apart (t : str) : Prop := match t with [] => True | c :: _ => White c end.
(* x' is what the text of x with P digits stands for: zero, or the closest number
   of the format to the closest number with P digits *)
Definition sided (neg : bool) (r : R) : R := if neg then - r else r.
Definition Rewritten (f : fmt) (P : nat) (x x' : fnum) : Prop :=
  match x with
  | FFin neg n => n = 0%Z /\ x' = x \/ (0 < n)%Z /\ exists d X, NearDecimal P (val f false n) d X /\ Correct f (sided neg (scaled10 P d X)) x'
  | _ => False
  end.

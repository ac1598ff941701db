(* Floating point numbers as real numbers. *)
From Coq Require Import Reals ZArith.
From Verif Require Import Model.FloatText Spec.FloatText.
Local Open Scope R_scope.

(* the number a finite x stands for *)
Definition unit_of (f : fmt) : R := / IZR (2 ^ fm_low f).
Definition val (f : fmt) (neg : bool) (n : Z) : R := (if neg then - IZR n else IZR n) * unit_of f.
(* the extended reals, and the place of x among them *)
Inductive xreal := Below | Real (r : R) | Above.
Definition Place (f : fmt) (x : fnum) (p : xreal) : Prop :=
  match x with
  | FNan => False
  | FInf true => p = Below
  | FInf false => p = Above
  | FFin neg n => p = Real (val f neg n)
  end.
Definition xlt (p q : xreal) : Prop :=
  match p, q with
  | Below, Below | Above, _ | Real _, Below => False
  | Below, _ | Real _, Above => True
  | Real a, Real b => a < b
  end.
(* the order of floating point numbers; nan has no place in it *)
Definition Less (f : fmt) (x y : fnum) : Prop := exists p q, Place f x p /\ Place f y q /\ xlt p q.
Definition Same (f : fmt) (x y : fnum) : Prop := exists p, Place f x p /\ Place f y p.
Definition LessEq (f : fmt) (x y : fnum) : Prop := Less f x y \/ Same f x y.
Definition NaN (x : fnum) : Prop := x = FNan.
Definition Num (x : fnum) : Prop := x <> FNan.

(* the numbers of the format, were the exponent unbounded *)
Definition Grid (f : fmt) (g : R) : Prop := exists neg n, Rep f n /\ g = val f neg n.
(* g is the one closest to r; of two, the one that is an even multiple of their
   distance *)
Definition Near (f : fmt) (r g : R) : Prop :=
  Grid f g /\ forall g', Grid f g' -> g' <> g ->
    Rabs (g - r) < Rabs (g' - r) \/ Rabs (g - r) = Rabs (g' - r) /\ exists k, g = 2 * IZR k * (g - g').
(* the correctly rounded result r of an operation *)
Definition Correct (f : fmt) (r : R) (x : fnum) : Prop :=
  exists g, Near f r g /\
  match x with
  | FNan => False
  | FInf neg => IZR (2 ^ fm_top f) <= Rabs g /\ (if neg then r < 0 else 0 < r)
  | FFin neg n => Finite f n /\ g = val f neg n /\ (if neg then r <= 0 else 0 <= r)
  end.

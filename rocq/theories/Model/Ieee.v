(* Arithmetic of float and double: IEEE 754, to nearest, ties to even, each
   operation rounded on its own (no extended precision, no contraction).  The
   operations are those used by flut/math/math.hpp, flut/math/bounds.hpp,
   flut/math/average.hpp, flut/math/delta.hpp and flut/math/bounding_box.hpp. *)
From Verif Require Import Model.Base Model.FloatText.
Local Open Scope Z_scope.

(* T(), T( 0 ), T( 1 ), T( -1 ) (flut/math/math.hpp:60) *)
Definition f_zero : fnum := FFin false 0.
Definition f_one (f : fmt) : fnum := FFin false (2 ^ fm_low f).
Definition signed (neg : bool) (n : Z) : Z := if neg then - n else n.

(* == , < , > , <= and >= (flut/math/math.hpp:60-77): false with nan *)
Definition f_eq (x y : fnum) : bool :=
  match x, y with
  | FNan, _ | _, FNan => false
  | FInf a, FInf b => Bool.eqb a b
  | FFin a n, FFin b m => signed a n =? signed b m
  | _, _ => false
  end.
Definition f_lt (x y : fnum) : bool :=
  match x, y with
  | FNan, _ | _, FNan => false
  | FInf a, FInf b => a && negb b
  | FInf a, FFin _ _ => a
  | FFin _ _, FInf b => negb b
  | FFin a n, FFin b m => signed a n <? signed b m
  end.
Definition f_gt (x y : fnum) : bool := f_lt y x.
Definition f_le (x y : fnum) : bool := f_lt x y || f_eq x y.
Definition f_ge (x y : fnum) : bool := f_le y x.

(* unary minus (flut/math/bounds.hpp:26), std::abs (flut/math/math.hpp:42) *)
Definition f_neg (x : fnum) : fnum :=
  match x with FNan => FNan | FInf a => FInf (negb a) | FFin a n => FFin (negb a) n end.
Definition f_abs (x : fnum) : fnum :=
  match x with FNan => FNan | FInf _ => FInf false | FFin _ n => FFin false n end.

(* + and - (flut/math/bounds.hpp:17, 20): a sum of zero is -0 only for two
   zeros of that sign *)
Definition f_add (f : fmt) (x y : fnum) : fnum :=
  match x, y with
  | FNan, _ | _, FNan => FNan
  | FInf a, FInf b => if Bool.eqb a b then FInf a else FNan
  | FInf a, FFin _ _ => FInf a
  | FFin _ _, FInf b => FInf b
  | FFin a n, FFin b m =>
      let s := signed a n + signed b m in
      if s =? 0 then FFin (a && b) 0 else to_fnum f (s <? 0) (VNum (Z.abs s) (2 ^ fm_low f))
  end.
Definition f_sub (f : fmt) (x y : fnum) : fnum := f_add f x (f_neg y).
(* * (flut/math/math.hpp:54) *)
Definition f_mul (f : fmt) (x y : fnum) : fnum :=
  match x, y with
  | FNan, _ | _, FNan => FNan
  | FInf a, FInf b => FInf (xorb a b)
  | FInf a, FFin b m => if m =? 0 then FNan else FInf (xorb a b)
  | FFin a n, FInf b => if n =? 0 then FNan else FInf (xorb a b)
  | FFin a n, FFin b m => to_fnum f (xorb a b) (VNum (n * m) (2 ^ fm_low f * 2 ^ fm_low f))
  end.
(* / (flut/math/math.hpp:45) *)
Definition f_div (f : fmt) (x y : fnum) : fnum :=
  match x, y with
  | FNan, _ | _, FNan => FNan
  | FInf _, FInf _ => FNan
  | FInf a, FFin b _ => FInf (xorb a b)
  | FFin a _, FInf b => FFin (xorb a b) 0
  | FFin a n, FFin b m =>
      if m =? 0 then (if n =? 0 then FNan else FInf (xorb a b)) else to_fnum f (xorb a b) (VNum n m)
  end.
(* fmod (flut/math/math.hpp:100-102): exact, with the sign of x *)
Definition f_mod (x y : fnum) : fnum :=
  match x, y with
  | FNan, _ | _, FNan => FNan
  | FInf _, _ => FNan
  | FFin a n, FInf _ => FFin a n
  | FFin a n, FFin _ m => if m =? 0 then FNan else FFin a (n mod m)
  end.

(* flut/math/math.hpp, flut/math/angle.hpp, flut/math/bounds.hpp: floating point
   numbers are taken as exact reals, except where said otherwise. *)
From Coq Require Import Reals.
From Verif Require Import Model.Base.
Local Open Scope R_scope.

Definition Rltb (x y : R) : bool := if Rlt_dec x y then true else false.
Definition Rleb (x y : R) : bool := if Rle_dec x y then true else false.

(* clamp, clamped (flut/math/math.hpp:76-80) for any type with < *)
Definition clamp {T} (lt : T -> T -> bool) (v min max : T) : T :=
  if lt v min then min else if lt max v then max else v.
Definition clampR : R -> R -> R -> R := clamp Rltb.

(* limit_transfer, soft_clamp (flut/math/math.hpp:83-94) *)
Definition limit_transfer (x limit : R) : R := limit - limit * limit / (x + limit).
Definition soft_clamp (v min max boundary : R) : R :=
  let r := boundary * (max - min) in
  if Rltb (max - r) v then max - r + limit_transfer (v - max + r) r
  else if Rltb v (min + r) then min + r - limit_transfer (min + r - v) r
  else v.

(* fmod of the C library: the quotient is rounded towards zero *)
Definition floor (x : R) : Z := Int_part x.
Definition trunc (x : R) : Z := if Rleb 0 x then floor x else (- floor (- x))%Z.
Definition fmod (x y : R) : R := x - IZR (trunc (x / y)) * y.
(* wrap, wrapped (flut/math/math.hpp:97-105) *)
Definition wrap (v lower upper : R) : R :=
  if Rleb 0 (v - lower) then fmod (v - lower) (upper - lower) + lower
  else fmod (v - lower) (upper - lower) + upper.
(* is_between, square_wave (flut/math/math.hpp:108-111) *)
Definition is_between (v min max : R) : bool := Rleb min v && Rleb v max.
Definition square_wave (v : R) : R := if Rltb (fmod v 2) 1 then 1 else -1.

(* equals, signed_sqrt, sign (flut/math/math.hpp:42, 51, 60) *)
Definition equals (v1 v2 e : R) : bool := Rleb (Rabs (v1 - v2)) (Rabs v1 * e).
Definition signed_sqrt (v : R) : R := if Rleb 0 v then sqrt v else - sqrt (- v).
Definition sign (v : R) : R := if Rleb 0 v then 1 else -1.
(* set_if_smaller, set_if_bigger (flut/math/math.hpp:63-66) *)
Definition set_if_smaller (value other : R) : R := if Rltb other value then other else value.
Definition set_if_bigger (value other : R) : R := if Rltb value other then other else value.

(* constants<T>::pi() (flut/math/math.hpp:11), rad_to_deg, deg_to_rad (:36-39) *)
Definition flut_pi : R := 314159265358979 / 100000000000000.
Definition rad_to_deg (x : R) : R := 180 / flut_pi * x.
Definition deg_to_rad (x : R) : R := flut_pi / 180 * x.

(* is_power_of_two, is_even, is_odd (flut/math/math.hpp:69-73) for an integer
   type of w bits: operands narrower than int (32 bits) are computed as int;
   None: v - 1 overflows a signed type *)
Record int_type := mkInt { width : Z; signed : bool }.
Definition in_type (t : int_type) (v : Z) : Prop :=
  (if signed t then - 2 ^ (width t - 1) <= v < 2 ^ (width t - 1) else 0 <= v < 2 ^ width t)%Z.
Definition minus_one (t : int_type) (v : Z) : option Z :=
  (if width t <? 32 then Some (v - 1)
   else if signed t then if - 2 ^ (width t - 1) <=? v - 1 then Some (v - 1) else None
   else Some ((v - 1) mod 2 ^ width t))%Z.
Definition is_power_of_two (t : int_type) (v : Z) : option bool :=
  if (v =? 0)%Z then Some false
  else match minus_one t v with Some u => Some (Z.land v u =? 0)%Z | None => None end.
Definition is_even (v : Z) : bool := (Z.land v 1 =? 0)%Z.
Definition is_odd (v : Z) : bool := (Z.land v 1 =? 1)%Z.

(* angle_< U, T > (flut/math/angle.hpp:13-81): a number of degrees or radians *)
Inductive unit_ := Degrees | Radians.
Record angle := mkAngle { aunit : unit_; avalue : R }.
(* angle_converter< A, B >::convert (flut/math/angle.hpp:15-22) *)
Definition convert (a b : unit_) (v : R) : R :=
  match a, b with
  | Degrees, Radians => deg_to_rad v
  | Radians, Degrees => rad_to_deg v
  | _, _ => v
  end.
(* converting constructor and assignment (:37-40), degree, radian (:43-44) *)
Definition to_unit (u : unit_) (a : angle) : angle := mkAngle u (convert (aunit a) u (avalue a)).
(* deg_value, rad_value (:47-48) *)
Definition deg_value (a : angle) : R := convert (aunit a) Degrees (avalue a).
Definition rad_value (a : angle) : R := convert (aunit a) Radians (avalue a).
(* scalar multiplication and division (:51-54, 95-101) *)
Definition angle_mul (a : angle) (s : R) : angle := mkAngle (aunit a) (avalue a * s).
Definition angle_div (a : angle) (s : R) : angle := mkAngle (aunit a) (avalue a / s).
(* operators with another angle convert it to the unit of the first, where they
   take different units at all: += and -= (:57-58) and comparisons (:64-69) *)
Definition angle_add (a b : angle) : angle := mkAngle (aunit a) (avalue a + avalue (to_unit (aunit a) b)).
Definition angle_sub (a b : angle) : angle := mkAngle (aunit a) (avalue a - avalue (to_unit (aunit a) b)).
Definition angle_neg (a : angle) : angle := mkAngle (aunit a) (- avalue a).
Definition angle_lt (a b : angle) : bool := Rltb (avalue a) (avalue (to_unit (aunit a) b)).
Definition angle_eq (a b : angle) : bool := if Req_EM_T (avalue a) (avalue (to_unit (aunit a) b)) then true else false.
(* sin, cos (:114-115) *)
Definition angle_sin (a : angle) : R := sin (rad_value a).
Definition angle_cos (a : angle) : R := cos (rad_value a).

(* bounds (flut/math/bounds.hpp:6-30) *)
Record bounds := mkBounds { lower : R; upper : R }.
Definition is_within (b : bounds) (v : R) : bool := Rleb (lower b) v && Rleb v (upper b).
Definition range (b : bounds) : R := upper b - lower b.
Definition get_violation (b : bounds) (v : R) : R :=
  if Rltb v (lower b) then v - lower b else if Rltb (upper b) v then v - upper b else 0.
Definition bounds_clamp (b : bounds) (v : R) : R := clampR v (lower b) (upper b).
Definition bounds_neg (b : bounds) : bounds := mkBounds (- upper b) (- lower b).

(* flut/math/math.hpp, flut/math/bounds.hpp, flut/math/bounding_box.hpp,
   flut/math/average.hpp and flut/math/delta.hpp for float and double, with the
   arithmetic of Model/Ieee.v. *)
From Coq Require Import List.
From Verif Require Import Model.Base Model.FloatText Model.Math Model.Ieee.
Local Open Scope Z_scope.

(* constants (flut/math/math.hpp:15-20) *)
Definition f_eps (f : fmt) : fnum := FFin false (2 ^ (fm_low f - fm_prec f + 1)).
Definition f_relaxed_eps (f : fmt) : fnum := FFin false (4 * 2 ^ (fm_low f - fm_prec f + 1)).
Definition f_max (f : fmt) : fnum := FFin false ((2 ^ fm_prec f - 1) * 2 ^ (fm_top f + fm_low f - fm_prec f)).
Definition f_lowest (f : fmt) : fnum := f_neg (f_max f).

(* equals (flut/math/math.hpp:42) *)
Definition f_equals (f : fmt) (v1 v2 e : fnum) : bool := f_le (f_abs (f_sub f v1 v2)) (f_mul f (f_abs v1) e).
(* sign (flut/math/math.hpp:60) *)
Definition f_sign (f : fmt) (v : fnum) : fnum := if f_ge v f_zero then f_one f else f_neg (f_one f).
(* set_if_smaller, set_if_bigger (flut/math/math.hpp:63-66) *)
Definition f_set_if_smaller (value other : fnum) : fnum := if f_lt other value then other else value.
Definition f_set_if_bigger (value other : fnum) : fnum := if f_gt other value then other else value.
(* clamp (flut/math/math.hpp:76-77) *)
Definition f_clamp (v min max : fnum) : fnum := clamp f_lt v min max.
(* wrap (flut/math/math.hpp:97-102) *)
Definition f_wrap (f : fmt) (v lower upper : fnum) : fnum :=
  if f_ge (f_sub f v lower) f_zero
  then f_add f (f_mod (f_sub f v lower) (f_sub f upper lower)) lower
  else f_add f (f_mod (f_sub f v lower) (f_sub f upper lower)) upper.
(* is_between (flut/math/math.hpp:108) *)
Definition f_is_between (v min max : fnum) : bool := f_ge v min && f_le v max.
(* square_wave (flut/math/math.hpp:111) *)
Definition f_square_wave (f : fmt) (v : fnum) : fnum :=
  if f_lt (f_mod v (FFin false (2 * 2 ^ fm_low f))) (f_one f) then f_one f else f_neg (f_one f).

(* bounds (flut/math/bounds.hpp:6-30) *)
Record f_bounds := mkFb { fb_lower : fnum; fb_upper : fnum }.
Definition fb_is_within (b : f_bounds) (value : fnum) : bool := f_ge value (fb_lower b) && f_le value (fb_upper b).
Definition fb_range (f : fmt) (b : f_bounds) : fnum := f_sub f (fb_upper b) (fb_lower b).
Definition fb_violation (f : fmt) (b : f_bounds) (value : fnum) : fnum :=
  if f_lt value (fb_lower b) then f_sub f value (fb_lower b)
  else if f_gt value (fb_upper b) then f_sub f value (fb_upper b) else f_zero.
Definition fb_clamp (b : f_bounds) (value : fnum) : fnum := f_clamp value (fb_lower b) (fb_upper b).
Definition fb_neg (b : f_bounds) : f_bounds := mkFb (f_neg (fb_upper b)) (f_neg (fb_lower b)).

(* vec3_ (flut/math/vec3_type.hpp) and bounding_box_
   (flut/math/bounding_box.hpp:10-37) *)
Record f_vec := mkFv { fv_x : fnum; fv_y : fnum; fv_z : fnum }.
Record f_box := mkFx { fx_lower : f_vec; fx_upper : f_vec }.
Definition fx_default (f : fmt) : f_box := mkFx (mkFv (f_max f) (f_max f) (f_max f)) (mkFv (f_lowest f) (f_lowest f) (f_lowest f)).
Definition fx_of_point (p : f_vec) : f_box := mkFx p p.
Definition fx_add_point (b : f_box) (v : f_vec) : f_box :=
  mkFx (mkFv (f_set_if_smaller (fv_x (fx_lower b)) (fv_x v)) (f_set_if_smaller (fv_y (fx_lower b)) (fv_y v)) (f_set_if_smaller (fv_z (fx_lower b)) (fv_z v)))
       (mkFv (f_set_if_bigger (fv_x (fx_upper b)) (fv_x v)) (f_set_if_bigger (fv_y (fx_upper b)) (fv_y v)) (f_set_if_bigger (fv_z (fx_upper b)) (fv_z v))).
Definition fx_add_box (b c : f_box) : f_box :=
  mkFx (mkFv (f_set_if_smaller (fv_x (fx_lower b)) (fv_x (fx_lower c))) (f_set_if_smaller (fv_y (fx_lower b)) (fv_y (fx_lower c))) (f_set_if_smaller (fv_z (fx_lower b)) (fv_z (fx_lower c))))
       (mkFv (f_set_if_bigger (fv_x (fx_upper b)) (fv_x (fx_upper c))) (f_set_if_bigger (fv_y (fx_upper b)) (fv_y (fx_upper c))) (f_set_if_bigger (fv_z (fx_upper b)) (fv_z (fx_upper c)))).
(* a client's sequence of += *)
Inductive f_item := FPoint (p : f_vec) | FWhole (c : f_box).
Definition fx_include (b : f_box) (i : f_item) : f_box := match i with FPoint p => fx_add_point b p | FWhole c => fx_add_box b c end.
Definition fx_include_all (b : f_box) (l : list f_item) : f_box := fold_left fx_include l b.

(* average_ (flut/math/average.hpp:10-24) *)
Record f_average := mkFa { fa_v : fnum; fa_w : fnum }.
Definition fa_new : f_average := mkFa f_zero f_zero.
Definition fa_add (f : fmt) (a : f_average) (value w : fnum) : f_average := mkFa (f_add f (fa_v a) (f_mul f w value)) (f_add f (fa_w a) w).
Definition fa_add1 (f : fmt) (a : f_average) (value : fnum) : f_average := fa_add f a value (f_one f).
Definition fa_get (f : fmt) (a : f_average) : fnum := if f_gt (fa_w a) f_zero then f_div f (fa_v a) (fa_w a) else f_zero.
Definition fa_empty (a : f_average) : bool := f_eq (fa_w a) f_zero.
(* delta (flut/math/delta.hpp:5-13): the result and the new previous_ *)
Definition fd_call (f : fmt) (previous new_value : fnum) : fnum * fnum := (f_sub f new_value previous, new_value).

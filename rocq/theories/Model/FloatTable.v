(* flut/math/regular_piecewise_linear_function.hpp for float and double, with
   the arithmetic of Model/Ieee.v. *)
From Coq Require Import List ZArith.
From Verif Require Import Model.Base Model.FloatText Model.Math Model.Ieee Model.Interp Model.FloatInterp.
Import ListNotations.
Local Open Scope Z_scope.

(* conversion of a number of format f to format g, to the nearest value: the
   argument and the result of fn (line 22), which is a function of double *)
Definition f_conv (f g : fmt) (x : fnum) : fnum :=
  match x with
  | FFin neg n => to_fnum g neg (VNum n (2 ^ fm_low f))
  | _ => x
  end.
(* int( floor( x ) ) (line 29): undefined unless it fits *)
Definition f_floor_int (f : fmt) (x : fnum) : res Z :=
  match x with
  | FFin neg n => to_int (signed neg n / 2 ^ fm_low f)
  | _ => UB
  end.

(* the members (flut/math/regular_piecewise_linear_function.hpp:36-39) *)
Record frpl := mkFrpl { ft_base : fnum; ft_step : fnum; ft_points : Z; ft_data : list fnum }.
(* constructor (lines 14-23): intervals + 1 may overflow, and a negative array
   size throws; fn is called for 0, 1, 2, ... and taken to be a function *)
Definition f_node (f : fmt) (base step : fnum) (i : nat) : fnum := f_add f base (f_mul f (f_of_int f (Z.of_nat i)) step).
Definition f_rpl_make (f : fmt) (x_min x_max : fnum) (intervals : Z) (fn : fnum -> fnum) : res frpl :=
  let step := f_div f (f_sub f x_max x_min) (f_of_int f intervals) in
  let* n := to_int (intervals + 1) in
  if n <? 0 then Throw
  else Ok (mkFrpl x_min step n (map (fun i => f_conv double_fmt f (fn (f_conv f double_fmt (f_node f x_min step i)))) (seq 0 (Z.to_nat n)))).
(* operator() (lines 25-33) *)
Definition f_rpl_eval (f : fmt) (t : frpl) (x : fnum) : res fnum :=
  let x_idx := f_div f (f_sub f x (ft_base t)) (ft_step t) in
  let* i := f_floor_int f x_idx in
  let xlb := clamp Z.ltb i 0 (ft_points t - 2) in
  let wub := f_sub f x_idx (f_of_int f xlb) in
  let* d0 := zget (ft_data t) xlb in
  let* d1 := zget (ft_data t) (xlb + 1) in
  Ok (f_mix f wub d0 d1).

(* flut/buffer/interpolation.hpp and
   flut/math/regular_piecewise_linear_function.hpp for float and double, with the
   arithmetic of Model/Ieee.v. *)
From Coq Require Import List ZArith.
From Verif Require Import Model.Base Model.FloatText Model.Math Model.Ieee Model.SortedVector Model.Interp.
Import ListNotations.
Local Open Scope Z_scope.

(* ( T( 1 ) - w ) * a + w * b (flut/buffer/interpolation.hpp:26, 46,
   flut/math/regular_piecewise_linear_function.hpp:33) *)
Definition f_mix (f : fmt) (w a b : fnum) : fnum := f_add f (f_mul f (f_sub f (f_one f) w) a) (f_mul f w b).
(* interpolated_value of a vector of pairs (flut/buffer/interpolation.hpp:12-29,
   flut/buffer/buffer_access.hpp:22-26), keys and values of one type *)
Definition f_interpolated_value (f : fmt) (cont : list (fnum * fnum)) (key : fnum) : res fnum :=
  let* _ := assert_ (negb (length cont =? 0)%nat) in
  let* ub := bound_loop (fun p => f_lt key (fst p)) cont (length cont) 0 (length cont) in
  if (ub =? length cont)%nat then let* p := vget cont (ub - 1) in Ok (snd p)
  else if (ub =? 0)%nat then let* p := vget cont ub in Ok (snd p)
  else
    let* l := vget cont (ub - 1) in
    let* u := vget cont ub in
    let uw := f_div f (f_sub f key (fst l)) (f_sub f (fst u) (fst l)) in
    Ok (f_mix f uw (snd l) (snd u)).

(* an integer converted to T, to the nearest value *)
Definition f_of_int (f : fmt) (z : Z) : fnum := to_fnum f (z <? 0) (VNum (Z.abs z) 1).
(* size_t( key ): the fraction is dropped; undefined unless what is left fits
   (flut/buffer/interpolation.hpp:40) *)
Definition f_to_size (f : fmt) (x : fnum) : res Z :=
  match x with
  | FFin neg n =>
      let z := signed neg (n / 2 ^ fm_low f) in
      if (0 <=? z) && (z <? 2 ^ 64) then Ok z else UB
  | _ => UB
  end.
(* interpolated_value of a plain vector (flut/buffer/interpolation.hpp:31-48) *)
Definition f_interpolated_index (f : fmt) (cont : list fnum) (key : fnum) : res fnum :=
  let* _ := assert_ (negb (length cont =? 0)%nat) in
  if f_lt key f_zero then vget cont 0
  else
    let* lb := f_to_size f key in
    let ub := (lb + 1) mod 2 ^ 64 in
    if Z.of_nat (length cont) <=? ub then vget cont (length cont - 1)
    else
      let w := f_sub f key (f_of_int f lb) in
      let* l := zget cont lb in
      let* u := zget cont ub in
      Ok (f_mix f w l u).

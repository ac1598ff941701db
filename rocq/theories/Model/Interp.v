(* flut/math/regular_piecewise_linear_function.hpp and
   flut/buffer/interpolation.hpp over exact reals; UB also stands for a
   division by zero *)
From Coq Require Import Reals List ZArith.
From Verif Require Import Model.Base Model.Math Model.SortedVector Model.Regression.
Import ListNotations.
Local Open Scope R_scope.

(* a[ i ] of an array, with a signed index *)
Definition zget {A} (l : list A) (i : Z) : res A := if (i <? 0)%Z then UB else vget l (Z.to_nat i).
(* int( x ) for a value without fraction *)
Definition to_int (z : Z) : res Z := if ((- 2 ^ 31 <=? z) && (z <? 2 ^ 31))%Z then Ok z else UB.

(* regular_piecewise_linear_function (flut/math/regular_piecewise_linear_function.hpp:36-39) *)
Record rpl := mkRpl { x_base : R; x_step : R; points : Z; data : list R }.
(* constructor (lines 14-24): intervals + 1 may overflow, and a negative array
   size throws *)
Definition rpl_make (x_min x_max : R) (intervals : Z) (fn : R -> R) : res rpl :=
  let* step := rdiv (x_max - x_min) (IZR intervals) in
  let* n := to_int (intervals + 1) in
  if (n <? 0)%Z then Throw
  else Ok (mkRpl x_min step n (map (fun i => fn (x_min + INR i * step)) (seq 0 (Z.to_nat n)))).
(* operator() (lines 25-33) *)
Definition rpl_eval (f : rpl) (x : R) : res R :=
  let* x_idx := rdiv (x - x_base f) (x_step f) in
  let* i := to_int (floor x_idx) in
  let xlb := clamp Z.ltb i 0%Z (points f - 2)%Z in
  let wub := x_idx - IZR xlb in
  let* d0 := zget (data f) xlb in
  let* d1 := zget (data f) (xlb + 1) in
  Ok ((1 - wub) * d0 + wub * d1).

(* interpolated_value of a vector of pairs (flut/buffer/interpolation.hpp:12-29,
   flut/buffer/buffer_access.hpp:22-26), floating point keys *)
Definition interpolated_value (cont : list (R * R)) (key : R) : res R :=
  let* _ := assert_ (negb (length cont =? 0)%nat) in
  let* ub := bound_loop (fun p => Rltb key (fst p)) cont (length cont) 0 (length cont) in
  if (ub =? length cont)%nat then let* p := vget cont (ub - 1) in Ok (snd p)
  else if (ub =? 0)%nat then let* p := vget cont ub in Ok (snd p)
  else
    let* l := vget cont (ub - 1) in
    let* u := vget cont ub in
    let* uw := rdiv (key - fst l) (fst u - fst l) in
    Ok ((1 - uw) * snd l + uw * snd u).
(* the same with integer keys: key_t( 1 ) - uw and the quotient are integers;
   the differences of keys must not overflow *)
Definition interpolated_value_int (cont : list (Z * R)) (key : Z) : res R :=
  let* _ := assert_ (negb (length cont =? 0)%nat) in
  let* ub := bound_loop (fun p => (key <? fst p)%Z) cont (length cont) 0 (length cont) in
  if (ub =? length cont)%nat then let* p := vget cont (ub - 1) in Ok (snd p)
  else if (ub =? 0)%nat then let* p := vget cont ub in Ok (snd p)
  else
    let* l := vget cont (ub - 1) in
    let* u := vget cont ub in
    let* n := to_int (key - fst l)%Z in
    let* d := to_int (fst u - fst l)%Z in
    if (d =? 0)%Z then UB
    else let uw := Z.quot n d in Ok (IZR (1 - uw) * snd l + IZR uw * snd u).
(* interpolated_value of a plain vector (flut/buffer/interpolation.hpp:31-48);
   size_t( key ) of a key that does not fit is undefined; lb + 1 wraps around *)
Definition interpolated_index (cont : list R) (key : R) : res R :=
  let* _ := assert_ (negb (length cont =? 0)%nat) in
  if Rltb key 0 then vget cont 0
  else
    let lb := floor key in
    if (2 ^ 64 <=? lb)%Z then UB
    else
      let ub := ((lb + 1) mod 2 ^ 64)%Z in
      if (Z.of_nat (length cont) <=? ub)%Z then vget cont (length cont - 1)
      else
        let w := key - IZR lb in
        let* l := zget cont lb in
        let* u := zget cont ub in
        Ok ((1 - w) * l + w * u).
